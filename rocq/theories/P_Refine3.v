(** The number of elements of the refined simplex is n^dim; the sequence of the element iterator. *)
From Coq Require Import PeanoNat NArith ZArith Bool List Permutation Reals Factorial Lia Lra FunctionalExtensionality.
From Verif Require Import M_RefTopo M_RefGeo M_Refine S_RefGeo S_Refine P_Refine1 P_Refine2.
Import ListNotations.

(** ** words of length d over 0 .. n-1 *)
Fixpoint words (n d : nat) : list (list nat) :=
  match d with O => [[]] | S d => flat_map (fun a => map (cons a) (words n d)) (seq 0 n) end.
Lemma flat_map_const_length {A B} : forall (f : A -> list B) l c, (forall a, In a l -> length (f a) = c) -> length (flat_map f l) = length l * c.
Proof.
  intros f l c. induction l as [|a l IH]; intros H; [reflexivity|]. cbn [flat_map length]. rewrite app_length, H by (left; reflexivity).
  rewrite IH by (intros; apply H; right; assumption). reflexivity.
Qed.
Lemma words_length : forall n d, length (words n d) = n ^ d.
Proof.
  intros n d. induction d as [|d IH]; [reflexivity|]. cbn [words].
  rewrite (flat_map_const_length _ _ (n ^ d)) by (intros; rewrite map_length; exact IH).
  rewrite seq_length. reflexivity.
Qed.
Lemma words_in : forall n d w, In w (words n d) <-> length w = d /\ forall a, In a w -> a < n.
Proof.
  intros n d. induction d as [|d IH]; intros w; cbn [words].
  - split.
    + intros [<-|[]]. split; [reflexivity|]. intros a [].
    + intros [L _]. destruct w; [left; reflexivity|discriminate].
  - rewrite in_flat_map. split.
    + intros (a & Ha & Hw). apply in_map_iff in Hw. destruct Hw as (u & <- & Hu). apply IH in Hu. destruct Hu as [L B].
      apply in_seq in Ha. split; [cbn; lia|]. intros b [<-|I]; [lia|auto].
    + intros [L B]. destruct w as [|a u]; [discriminate|]. exists a. split.
      * apply in_seq. pose proof (B a (or_introl eq_refl)). lia.
      * apply in_map. apply IH. split; [cbn in L; lia|]. intros. apply B. right. assumption.
Qed.
Lemma NoDup_map_cons : forall (a : nat) W, NoDup W -> NoDup (map (cons a) W).
Proof.
  intros a W N. induction N as [|w W H N IH]; [constructor|]. cbn [map]. constructor; [|exact IH].
  rewrite in_map_iff. intros (u & E & I). injection E as ->. contradiction.
Qed.
Lemma NoDup_app_disjoint {A} : forall l m : list A, NoDup l -> NoDup m -> (forall x, In x l -> ~ In x m) -> NoDup (l ++ m).
Proof.
  intros l m N M D. induction N as [|w l H N IH]; [exact M|]. cbn [app]. constructor.
  - rewrite in_app_iff. intros [I|I]; [contradiction|]. apply (D w); [left; reflexivity|assumption].
  - apply IH. intros u I. apply D. right. assumption.
Qed.
Lemma NoDup_flat_map_cons : forall (l : list nat) (W : list (list nat)), NoDup l -> NoDup W ->
  NoDup (flat_map (fun a => map (cons a) W) l).
Proof.
  intros l W Nl NW. induction Nl as [|a l H N IH]; [constructor|]. cbn [flat_map].
  apply NoDup_app_disjoint; [apply NoDup_map_cons; assumption|exact IH|].
  intros w I J. apply in_map_iff in I. destruct I as (u & <- & _). apply in_flat_map in J. destruct J as (b & Ib & J).
  apply in_map_iff in J. destruct J as (u' & E & _). injection E as -> _. contradiction.
Qed.
Lemma words_NoDup : forall n d, NoDup (words n d).
Proof.
  intros n d. induction d as [|d IH]; cbn [words].
  - constructor; [intros []|constructor].
  - apply NoDup_flat_map_cons; [apply seq_NoDup|assumption].
Qed.

(** ** the order behind the bijection: larger letters first, ties by position *)
Definition ltW (w : nat -> nat) (b a : nat) : bool := (w a <? w b) || ((w a =? w b) && (b <? a)).
Lemma ltW_spec : forall w b a, ltW w b a = true <-> w a < w b \/ (w a = w b /\ b < a).
Proof. intros. unfold ltW. rewrite orb_true_iff, andb_true_iff, !Nat.ltb_lt, Nat.eqb_eq. reflexivity. Qed.
Lemma ltW_irr : forall w a, ltW w a a = false.
Proof. intros. unfold ltW. rewrite !Nat.ltb_irrefl, andb_false_r. reflexivity. Qed.
Lemma ltW_trans : forall w a b c, ltW w a b = true -> ltW w b c = true -> ltW w a c = true.
Proof. intros w a b c. rewrite !ltW_spec. lia. Qed.
Lemma ltW_total : forall w a b, a <> b -> ltW w a b = true \/ ltW w b a = true.
Proof. intros w a b H. rewrite !ltW_spec. lia. Qed.

Lemma decr_le : forall dim v i j, decr dim v -> i <= j -> j < dim -> v j <= v i.
Proof.
  intros dim v i j D L. induction L as [|j L IH]; intros H; [lia|]. pose proof (D j H). specialize (IH ltac:(lia)). lia.
Qed.
Lemma ties : forall dim q v i j, decr dim v -> inCond dim q v -> i < j -> j < dim -> v i = v j -> q i < q j.
Proof.
  intros dim q v i j D C L. induction L as [|j L IH]; intros H E.
  - pose proof (C i H). destruct (Nat.ltb_spec (q i) (q (S i))); lia.
  - pose proof (D j H). pose proof (decr_le dim v i j D ltac:(lia) ltac:(lia)). assert (Ej : v i = v j) by lia.
    specialize (IH ltac:(lia) Ej). pose proof (C j H). destruct (Nat.ltb_spec (q j) (q (S j))); lia.
Qed.
(** the permutation of an inside candidate is determined by the word *)
Lemma inside_rank : forall dim p q v, isPerm dim p -> isPerm dim q -> (forall i, i < dim -> q (p i) = i) ->
  decr dim v -> inCond dim q v -> forall a, a < dim -> p a = rank dim (ltW (fun i => v (p i))) a.
Proof.
  intros dim p q v Hp Hq qp D C. apply rank_unique; auto.
  - intros. apply ltW_irr.
  - intros. eapply ltW_trans; eassumption.
  - intros. apply ltW_total. assumption.
  - intros a b Ha Hb L. apply ltW_spec in L. pose proof (proj1 Hp a Ha) as Ba. pose proof (proj1 Hp b Hb) as Bb.
    destruct (Nat.lt_trichotomy (p a) (p b)) as [|[E|G]]; [assumption| |].
    + apply Hp in E; auto. subst. lia.
    + pose proof (decr_le dim v (p b) (p a) D ltac:(lia) Ba).
      destruct L as [L|[E L]]; [lia|].
      pose proof (ties dim q v (p b) (p a) D C G Ba E). rewrite !qp in H0 by assumption. lia.
Qed.
(** and every word belongs to one *)
Lemma word_inside : forall dim w, exists p q v,
  isPerm dim p /\ isPerm dim q /\ (forall i, i < dim -> q (p i) = i) /\ (forall i, i < dim -> p (q i) = i)
  /\ decr dim v /\ inCond dim q v /\ (forall i, i < dim -> v (p i) = w i) /\ forall j, v j = w (q j).
Proof.
  intros dim w.
  assert (P : isPerm dim (rank dim (ltW w))).
  { apply rank_perm.
    - intros. apply ltW_irr.
    - intros. eapply ltW_trans; eassumption.
    - intros. apply ltW_total. assumption. }
  destruct (perm_inverse dim _ P) as (q & Hq & qp & pq).
  exists (rank dim (ltW w)), q, (fun j => w (q j)).
  assert (L : forall j, S j < dim -> ltW w (q j) (q (S j)) = true).
  { intros j Hj. apply (rank_lt_iff dim (ltW w)).
    - intros. apply ltW_irr.
    - intros. eapply ltW_trans; eassumption.
    - intros. apply ltW_total. assumption.
    - apply Hq. lia.
    - apply Hq. assumption.
    - rewrite !pq by lia. lia. }
  split; [exact P|]. split; [exact Hq|]. split; [exact qp|]. split; [exact pq|]. repeat apply conj; try reflexivity.
  - intros j Hj. specialize (L j Hj). apply ltW_spec in L. lia.
  - intros j Hj. specialize (L j Hj). apply ltW_spec in L. destruct (Nat.ltb_spec (q j) (q (S j))); lia.
  - intros i Hi. rewrite qp by assumption. reflexivity.
Qed.

(** ** inside candidates and words *)
Lemma candIn_iff : forall dim r q, isPerm dim q -> (forall i, i < dim -> q (permOf dim (candK dim r) i) = i) ->
  (forall i, i < dim -> permOf dim (candK dim r) (q i) = i) ->
  (candIn dim r = true <-> inCond dim q (candO dim r)).
Proof.
  intros dim r q Hq qp pq. unfold candIn. rewrite negb_true_iff.
  apply outside_inCond; auto. apply (permOf_spec dim (candK dim r)). apply candK_lt.
Qed.
Definition wordOf (dim r : nat) : list nat := map (fun i => candO dim r (permOf dim (candK dim r) i)) (seq 0 dim).
Lemma map_seq_inj {A} : forall (f g : nat -> A) n, map f (seq 0 n) = map g (seq 0 n) -> forall i, i < n -> f i = g i.
Proof.
  intros f g n E i Hi.
  assert (N : nth_error (map f (seq 0 n)) i = nth_error (map g (seq 0 n)) i) by (rewrite E; reflexivity).
  rewrite !nth_error_map in N. rewrite (nth_error_nth' _ 0) in N by (rewrite seq_length; assumption).
  rewrite seq_nth in N by assumption. cbn in N. injection N. auto.
Qed.
Lemma candO_decr : forall dim r, 0 < dim -> decr dim (candO dim r).
Proof. intros. apply vseq_decr. assumption. Qed.
Lemma wordOf_inj : forall dim r r', 0 < dim -> candIn dim r = true -> candIn dim r' = true -> wordOf dim r = wordOf dim r' -> r = r'.
Proof.
  intros dim r r' H I I' E.
  destruct (permOf_spec dim (candK dim r) (candK_lt dim r)) as [G P].
  destruct (permOf_spec dim (candK dim r') (candK_lt dim r')) as [G' P'].
  destruct (perm_inverse dim _ P) as (q & Hq & qp & pq). destruct (perm_inverse dim _ P') as (q' & Hq' & qp' & pq').
  apply (candIn_iff dim r q Hq qp pq) in I. apply (candIn_iff dim r' q' Hq' qp' pq') in I'.
  pose proof (inside_rank dim _ q _ P Hq qp (candO_decr dim r H) I) as R.
  pose proof (inside_rank dim _ q' _ P' Hq' qp' (candO_decr dim r' H) I') as R'.
  pose proof (map_seq_inj _ _ _ E) as W. cbv beta in W.
  assert (Ep : agree dim (permOf dim (candK dim r)) (permOf dim (candK dim r'))).
  { intros a Ha. rewrite R, R' by assumption. unfold rank. apply cnt_ext. intros b Hb. unfold ltW. rewrite !W by assumption. reflexivity. }
  assert (Ek : candK dim r = candK dim r').
  { eapply getPermutation_inj; [apply candK_lt|apply candK_lt|exact G|exact G'|exact Ep]. }
  assert (Ev : agree dim (candO dim r) (candO dim r')).
  { intros j Hj. rewrite <- (pq j Hj) at 1. rewrite W by (apply Hq; assumption). rewrite <- Ep by (apply Hq; assumption). rewrite pq by assumption. reflexivity. }
  assert (Ei : r / fact dim = r' / fact dim).
  { apply index_ext in Ev. unfold candO in Ev. rewrite !vseq_index in Ev by assumption. exact Ev. }
  pose proof (fact_pos dim).
  rewrite (Nat.div_mod r (fact dim)) by lia. rewrite (Nat.div_mod r' (fact dim)) by lia. unfold candK in Ek. rewrite Ei, Ek. reflexivity.
Qed.
(** a pair with given contents *)
Lemma cand_of : forall dim v k, 0 < dim -> decr dim v -> k < fact dim ->
  exists r, agree dim (candO dim r) v /\ candK dim r = k /\ r = pointIndex dim v * fact dim + k.
Proof.
  intros dim v k H D K. exists (pointIndex dim v * fact dim + k). pose proof (fact_pos dim).
  unfold candO, candK. rewrite Nat.div_add_l, Nat.div_small, Nat.add_0_r by lia.
  rewrite Nat.add_comm, Nat.mod_add, Nat.mod_small by lia. repeat apply conj; auto.
  - intros i Hi. symmetry. apply vseq_of; assumption.
Qed.
(** the rank of the end iterator *)
Definition lastR (dim n : nat) : nat := binom (dim + (n - 1)) dim * fact dim.
Lemma cand_bound : forall dim n r, 0 < dim -> 0 < n -> (r < lastR dim n <-> candO dim r 0 < n).
Proof.
  intros dim n r H Hn. unfold lastR, candO. pose proof (fact_pos dim).
  pose proof (vseq_bound dim (n - 1) (r / fact dim) H).
  assert (r < binom (dim + (n - 1)) dim * fact dim <-> r / fact dim < binom (dim + (n - 1)) dim).
  { split.
    - intros. apply Nat.div_lt_upper_bound; lia.
    - intros L. pose proof (Nat.div_mod r (fact dim) ltac:(lia)). pose proof (Nat.mod_upper_bound r (fact dim) ltac:(lia)). nia. }
  rewrite H2, H1. lia.
Qed.
Lemma count_elements : forall dim n, 0 < dim -> 0 < n -> cnt (candIn dim) (lastR dim n) = n ^ dim.
Proof.
  intros dim n H Hn. rewrite <- words_length. unfold cnt.
  rewrite <- (map_length (wordOf dim)). apply Permutation_length. apply NoDup_Permutation.
  - assert (G : forall l, NoDup l -> (forall r, In r l -> candIn dim r = true) -> NoDup (map (wordOf dim) l)).
    { induction l as [|a l IH]; intros N B; [constructor|]. inversion N; subst. cbn [map]. constructor.
      - rewrite in_map_iff. intros (b & E & I). apply wordOf_inj in E; auto.
        + subst. contradiction.
        + apply B. right. assumption.
        + apply B. left. reflexivity.
      - apply IH; auto. intros. apply B. right. assumption. }
    apply G; [apply NoDup_filter, seq_NoDup|]. intros r. rewrite filter_In. tauto.
  - apply words_NoDup.
  - intros w. rewrite in_map_iff, words_in. split.
    + intros (r & <- & I). apply filter_In in I. destruct I as [I Y]. apply in_seq in I.
      unfold wordOf. rewrite map_length, seq_length. split; [reflexivity|].
      intros a. rewrite in_map_iff. intros (i & <- & J). apply in_seq in J.
      destruct (permOf_spec dim (candK dim r) (candK_lt dim r)) as [_ [P _]].
      pose proof (P i ltac:(lia)). pose proof (decr_le dim (candO dim r) 0 _ (candO_decr dim r H) (Nat.le_0_l _) H0).
      pose proof (proj1 (cand_bound dim n r H Hn) ltac:(lia)). lia.
    + intros [L B]. destruct (word_inside dim (fun i => nth i w 0)) as (p & q & v & Hp & Hq & qp & pq & D & C & W & V).
      destruct (getPermutation_surj dim p Hp) as (k & p' & Hk & E & A).
      destruct (cand_of dim v k H D Hk) as (r & Er & Ek & Eq).
      assert (EP : permOf dim (candK dim r) = p') by (unfold permOf; rewrite Ek, E; reflexivity).
      exists r. split.
      * unfold wordOf. rewrite EP. transitivity (map (fun i => nth i w 0) (seq 0 dim)).
        -- apply map_ext_in. intros i I. apply in_seq in I. rewrite A by lia. rewrite Er by (apply Hp; lia). apply W. lia.
        -- clear - L. apply (nth_ext _ _ 0 0); [rewrite map_length, seq_length; auto|]. intros i Hi.
           rewrite map_length, seq_length in Hi. rewrite (nth_indep _ 0 (nth 0 w 0)) by (rewrite map_length, seq_length; assumption).
           rewrite (map_nth (fun i => nth i w 0)). rewrite seq_nth by assumption. reflexivity.
      * apply filter_In. split.
        -- apply in_seq. split; [lia|]. apply cand_bound; auto. rewrite Er by assumption. rewrite V.
           apply B. apply nth_In. rewrite L. apply Hq. assumption.
        -- apply (candIn_iff dim r q); auto.
           ++ intros i Hi. rewrite EP, A by assumption. auto.
           ++ intros i Hi. rewrite EP, A by (apply Hq; assumption). auto.
           ++ intros j Hj. rewrite !Er by lia. apply C. assumption.
Qed.

(** ** the sequence of the element iterator *)
Definition nextR (dim r : nat) : nat :=
  match find (fun j => candIn dim (r + 1 + j)) (seq 0 (fact dim)) with Some m => r + 1 + m | None => r end.
Lemma find_seq : forall (f : nat -> bool) n m, m < n -> (forall j, j < m -> f j = false) -> f m = true -> find f (seq 0 n) = Some m.
Proof.
  intros f n m Hm N Y.
  assert (G : forall n s, s <= m -> m < s + n -> find f (seq s n) = Some m).
  { induction n0 as [|n0 IH]; intros s H1 H2; [lia|]. cbn [seq find]. destruct (Nat.eq_dec s m) as [->|E]; [rewrite Y; reflexivity|].
    rewrite N by lia. apply IH; lia. }
  apply G; lia.
Qed.
Lemma nextR_spec : forall dim r, 0 < dim ->
  r < nextR dim r /\ (forall x, r < x -> x < nextR dim r -> candIn dim x = false) /\ candIn dim (nextR dim r) = true
  /\ forall fuel, fact dim <= fuel ->
     se_search fuel dim (candO dim r) (candK dim r) = Ret (candO dim (nextR dim r), candK dim (nextR dim r)).
Proof.
  intros dim r H. destruct (next_cand dim r H) as (m & Hm & N & Y & _).
  assert (E : nextR dim r = r + 1 + m).
  { unfold nextR. rewrite (find_seq _ (fact dim) m); auto. }
  rewrite E. repeat apply conj; auto; try lia.
  - intros x H1 H2. replace x with (r + 1 + (x - r - 1)) by lia. apply N. lia.
  - intros fuel F. apply se_search_cand; auto. lia.
Qed.
Definition rs (dim k : nat) : nat := Nat.iter k (nextR dim) 0.
Lemma rs_S : forall dim k, rs dim (S k) = nextR dim (rs dim k). Proof. reflexivity. Qed.
Lemma rs_in : forall dim k, 0 < dim -> candIn dim (rs dim k) = true.
Proof.
  intros dim k H. destruct k as [|k].
  - apply candIn_id; [assumption|]. unfold candK. apply Nat.mod_0_l. pose proof (fact_pos dim). lia.
  - rewrite rs_S. apply nextR_spec. assumption.
Qed.
Lemma cnt_skip : forall f a b, a <= b -> (forall x, a <= x -> x < b -> f x = false) -> cnt f b = cnt f a.
Proof.
  intros f a b L. induction L as [|b L IH]; intros N; [reflexivity|]. rewrite cnt_S, N by lia.
  rewrite IH by (intros; apply N; lia). lia.
Qed.
Lemma cnt_incr : forall f a b, a <= b -> cnt f a <= cnt f b.
Proof. intros f a b L. induction L as [|b L IH]; [lia|]. rewrite cnt_S. lia. Qed.
Lemma rs_cnt : forall dim k, 0 < dim -> cnt (candIn dim) (rs dim k) = k.
Proof.
  intros dim k H. induction k as [|k IH]; [reflexivity|]. rewrite rs_S.
  destruct (nextR_spec dim (rs dim k) H) as (L & N & _).
  rewrite (cnt_skip _ (S (rs dim k))) by (auto; intros; apply N; lia). rewrite cnt_S, IH, rs_in by assumption. lia.
Qed.
Lemma rs_lt : forall dim n k, 0 < dim -> 0 < n -> (k < n ^ dim <-> rs dim k < lastR dim n).
Proof.
  intros dim n k H Hn. split; intros L.
  - destruct (Nat.lt_ge_cases (rs dim k) (lastR dim n)) as [|G]; [assumption|]. apply (cnt_incr (candIn dim)) in G.
    rewrite rs_cnt, count_elements in G by assumption. lia.
  - apply (cnt_incr (candIn dim)) in L. rewrite cnt_S, rs_in, rs_cnt, count_elements in L by assumption. lia.
Qed.
Lemma pow_pos : forall n d, 0 < n -> 0 < n ^ d.
Proof. intros n d H. pose proof (Nat.pow_nonzero n d). lia. Qed.
Lemma rs_end : forall dim n, 0 < dim -> 0 < n -> rs dim (n ^ dim) = lastR dim n.
Proof.
  intros dim n H Hn. pose proof (pow_pos n dim Hn).
  destruct (n ^ dim) as [|N] eqn:E; [lia|]. rewrite rs_S.
  assert (L : rs dim N < lastR dim n) by (apply rs_lt; auto; lia).
  destruct (nextR_spec dim (rs dim N) H) as (L1 & N1 & Y & _).
  assert (I : candIn dim (lastR dim n) = true).
  { apply candIn_id; [assumption|]. unfold candK, lastR. apply Nat.mod_mul. pose proof (fact_pos dim). lia. }
  destruct (Nat.lt_trichotomy (nextR dim (rs dim N)) (lastR dim n)) as [C|[C|C]]; [|assumption|].
  - rewrite <- rs_S in C. apply rs_lt in C; auto. lia.
  - rewrite (N1 (lastR dim n) L C) in I. discriminate.
Qed.
Definition elemAt (dim n k : nat) : SElem :=
  {| se_origin := candO dim (rs dim k); se_kuhn := candK dim (rs dim k); se_size := n; se_index := k |}.
Lemma elemAt_begin : forall dim n, 0 < dim -> elemAt dim n 0 = sx_eBegin dim n.
Proof.
  intros. unfold elemAt, sx_eBegin, se_make, rs, candO, candK. cbn [Nat.iter]. pose proof (fact_pos dim).
  change (Nat.iter 0 (nextR dim) 0) with 0. rewrite Nat.div_0_l, Nat.mod_0_l by lia. reflexivity.
Qed.
Lemma elemAt_end : forall dim n, 0 < dim -> 0 < n -> elemAt dim n (n ^ dim) = sx_eEnd dim n.
Proof.
  intros dim n H Hn. unfold elemAt, sx_eEnd, se_make. rewrite rs_end by assumption. unfold candO, candK, lastR, sx_nElements.
  pose proof (fact_pos dim). rewrite Nat.div_mul, Nat.mod_mul by lia. f_equal.
  extensionality i. set (w := fun i => if Nat.eqb i 0 then n else 0).
  assert (D : decr dim w) by (intros j Hj; unfold w; cbn; lia).
  assert (E : pointIndex dim w = binom (dim + (n - 1)) dim).
  { apply index_top; auto.
    - unfold w. cbn. lia.
    - intros j H1 H2. unfold w. destruct (Nat.eqb_spec j 0); lia. }
  destruct (Nat.lt_ge_cases i dim) as [L|L].
  - rewrite <- E. symmetry. apply (vseq_of dim w H D i L).
  - rewrite vseq_outside by assumption. destruct (Nat.eqb_spec i 0); lia.
Qed.
Lemma elemAt_step : forall dim n k fuel, 0 < dim -> 0 < n -> k < n ^ dim -> fact dim <= fuel ->
  se_increment fuel dim (elemAt dim n k) = Ret (elemAt dim n (S k)).
Proof.
  intros dim n k fuel H Hn L F. unfold se_increment, elemAt. cbn [se_origin se_kuhn se_size se_index].
  apply rs_lt in L; auto. apply cand_bound in L; auto.
  destruct (Nat.ltb_spec (candO dim (rs dim k) 0) n); [|lia].
  destruct (nextR_spec dim (rs dim k) H) as (_ & _ & _ & S). rewrite S by assumption. rewrite <- rs_S. reflexivity.
Qed.
Lemma rs_mono : forall dim i j, 0 < dim -> i < j -> rs dim i < rs dim j.
Proof.
  intros dim i j H L. induction L as [|j L IH]; rewrite rs_S; destruct (nextR_spec dim (rs dim i) H) as (A & _).
  - exact A.
  - destruct (nextR_spec dim (rs dim j) H) as (B & _). lia.
Qed.
(** every inside candidate below the end is visited *)
Lemma rs_all : forall dim n r, 0 < dim -> 0 < n -> r < lastR dim n -> candIn dim r = true -> exists k, k < n ^ dim /\ rs dim k = r.
Proof.
  intros dim n r H Hn L I. exists (cnt (candIn dim) r).
  assert (G : forall k, rs dim k <= r -> rs dim k <> r -> rs dim (S k) <= r).
  { intros k A B. rewrite rs_S. destruct (nextR_spec dim (rs dim k) H) as (_ & N & _).
    destruct (Nat.le_gt_cases (nextR dim (rs dim k)) r) as [|C]; [assumption|]. rewrite N in I by lia. discriminate. }
  assert (E : rs dim (cnt (candIn dim) r) = r).
  { set (c := cnt (candIn dim) r).
    destruct (Nat.lt_trichotomy (rs dim c) r) as [C|[C|C]]; [|assumption|].
    - apply (cnt_incr (candIn dim)) in C. rewrite cnt_S, rs_cnt, rs_in in C by assumption. unfold c in C. lia.
    - apply (cnt_incr (candIn dim)) in C. rewrite cnt_S, rs_cnt, I in C by assumption. unfold c in C. lia. }
  split; [|exact E]. apply rs_lt; auto. rewrite E. assumption.
Qed.
