(** Permutations, Kuhn coordinates, point indices and the vertex iterator of the refined simplex. *)
From Coq Require Import PeanoNat NArith ZArith Bool List Reals Factorial Lia Lra FunctionalExtensionality.
From Verif Require Import M_RefTopo M_RefGeo M_Refine S_RefGeo S_Refine.
Import ListNotations.

Lemma aset_eq {A} : forall (f : nat -> A) i x, aset f i x i = x.
Proof. intros. unfold aset. rewrite Nat.eqb_refl. reflexivity. Qed.
Lemma aset_ne {A} : forall (f : nat -> A) i x j, j <> i -> aset f i x j = f j.
Proof. intros. unfold aset. destruct (Nat.eqb_spec j i); congruence. Qed.

(** ** permutations *)
Lemma base_fact : forall n, fold_left (fun base i => base * i) (seq 1 n) 1 = fact n.
Proof.
  intros. induction n as [|n IH]; [reflexivity|].
  rewrite seq_S, fold_left_app, IH. cbn [fold_left]. change (fact (S n)) with (S n * fact n). lia.
Qed.
Lemma fact_div : forall i, fact (S i) / S i = fact i.
Proof. intros. change (fact (S i)) with (S i * fact i). rewrite Nat.mul_comm, Nat.div_mul; lia. Qed.
Lemma fact_pos : forall i, 0 < fact i.
Proof. intros. pose proof (lt_O_fact i). lia. Qed.
Lemma digit_le : forall i m, m < fact (S i) -> m / fact i <= i.
Proof.
  intros. assert (m / fact i < S i); [|lia].
  apply Nat.div_lt_upper_bound; [pose proof (fact_pos i); lia|]. change (fact (S i)) with (S i * fact i) in H. lia.
Qed.
Lemma digit_rest : forall i m, m mod fact i < fact i.
Proof. intros. apply Nat.mod_upper_bound. pose proof (fact_pos i). lia. Qed.

(** the transposition used in one round *)
Definition swp (a b : nat) (j : nat) : nat := if Nat.eqb j a then b else if Nat.eqb j b then a else j.
Lemma swp_inv : forall a b j, swp a b (swp a b j) = j.
Proof.
  intros. unfold swp.
  destruct (Nat.eqb_spec j a); subst.
  - destruct (Nat.eqb_spec b a); subst; auto. rewrite Nat.eqb_refl. reflexivity.
  - destruct (Nat.eqb_spec j b); subst.
    + rewrite Nat.eqb_refl. reflexivity.
    + destruct (Nat.eqb_spec j a); [contradiction|]. destruct (Nat.eqb_spec j b); [contradiction|]. reflexivity.
Qed.
Lemma swap_aset {A} : forall (perm : nat -> A) a b j,
  aset (aset perm a (perm b)) b (perm a) j = perm (swp a b j).
Proof.
  intros. unfold aset, swp.
  destruct (Nat.eqb_spec j a); destruct (Nat.eqb_spec j b); subst; auto.
Qed.
Lemma permLoop_eq : forall i m perm, m < fact (S i) ->
  permLoop (S i) m (fact (S i)) perm
  = permLoop i (m mod fact i) (fact i)
      (aset (aset perm i (perm (i - m / fact i))) (i - m / fact i) (perm i)).
Proof.
  intros. cbn [permLoop]. rewrite fact_div. pose proof (digit_le i m H).
  destruct (Nat.ltb_spec i (m / fact i)); [lia|]. reflexivity.
Qed.
Lemma permLoop_spec : forall i m perm, m < fact i ->
  exists q s, permLoop i m (fact i) perm = Some q /\ (forall j, i <= j -> q j = perm j)
    /\ isPerm i s /\ forall j, j < i -> q j = perm (s j).
Proof.
  induction i as [|i IH]; intros m perm Hm.
  - exists perm, (fun j => j). cbn. split; [reflexivity|]. split; [auto|]. split; [split; intros; lia|]. intros; lia.
  - rewrite permLoop_eq by assumption.
    set (d := m / fact i). assert (Hd : d <= i) by (apply digit_le; assumption).
    destruct (IH (m mod fact i) (aset (aset perm i (perm (i - d))) (i - d) (perm i)) (digit_rest i m)) as (q & s & E & K & [S1 S2] & J).
    set (s' := fun j => if Nat.ltb j i then s j else j).
    exists q, (fun j => swp i (i - d) (s' j)).
    assert (B : forall j, j < S i -> s' j < S i).
    { intros. unfold s'. destruct (Nat.ltb_spec j i); [pose proof (S1 j H0)|]; lia. }
    repeat apply conj; auto.
    + intros. rewrite K by lia. rewrite swap_aset. unfold swp.
      destruct (Nat.eqb_spec j i); [lia|]. destruct (Nat.eqb_spec j (i - d)); [lia|]. reflexivity.
    + intros j Hj. pose proof (B j Hj). unfold swp. destruct (Nat.eqb_spec (s' j) i); [lia|].
      destruct (Nat.eqb_spec (s' j) (i - d)); lia.
    + intros j k Hj Hk E2. apply (f_equal (swp i (i - d))) in E2. rewrite !swp_inv in E2.
      unfold s' in E2. destruct (Nat.ltb_spec j i); destruct (Nat.ltb_spec k i).
      * apply S2; auto.
      * pose proof (S1 j H). lia.
      * pose proof (S1 k H0). lia.
      * lia.
    + intros j Hj. unfold s'. destruct (Nat.ltb_spec j i).
      * rewrite J by assumption. apply swap_aset.
      * assert (j = i) by lia. subst. rewrite K by lia. apply swap_aset.
Qed.
Lemma permLoop_inj : forall i m m' perm q q',
  m < fact i -> m' < fact i -> (forall j k, j < i -> k < i -> perm j = perm k -> j = k) ->
  permLoop i m (fact i) perm = Some q -> permLoop i m' (fact i) perm = Some q' ->
  (forall j, j < i -> q j = q' j) -> m = m'.
Proof.
  induction i as [|i IH]; intros m m' perm q q' Hm Hm' Inj E E' Q.
  - cbn in Hm, Hm'. lia.
  - rewrite permLoop_eq in E, E' by assumption.
    set (d := m / fact i) in *. set (d' := m' / fact i) in *.
    assert (Hd : d <= i) by (apply digit_le; assumption). assert (Hd' : d' <= i) by (apply digit_le; assumption).
    destruct (permLoop_spec i (m mod fact i) (aset (aset perm i (perm (i - d))) (i - d) (perm i)) (digit_rest i m)) as (r & s & R & K & _).
    destruct (permLoop_spec i (m' mod fact i) (aset (aset perm i (perm (i - d'))) (i - d') (perm i)) (digit_rest i m')) as (r' & s' & R' & K' & _).
    rewrite E in R. rewrite E' in R'. injection R as <-. injection R' as <-.
    assert (Ed : d = d').
    { pose proof (Q i (Nat.lt_succ_diag_r i)) as Qi. rewrite K, K' in Qi by lia. rewrite !swap_aset in Qi.
      apply Inj in Qi; unfold swp in *; rewrite ?Nat.eqb_refl in *; lia. }
    assert (Em : m mod fact i = m' mod fact i).
    { rewrite <- Ed in E'. eapply (IH (m mod fact i) (m' mod fact i)); [apply digit_rest|apply digit_rest| |exact E|exact E'|intros; apply Q; lia].
      intros j k Hj Hk. rewrite !swap_aset. intros E2. apply Inj in E2.
      - apply (f_equal (swp i (i - d))) in E2. rewrite !swp_inv in E2. exact E2.
      - unfold swp. destruct (Nat.eqb_spec j i); [lia|]. destruct (Nat.eqb_spec j (i - d)); lia.
      - unfold swp. destruct (Nat.eqb_spec k i); [lia|]. destruct (Nat.eqb_spec k (i - d)); lia. }
    pose proof (fact_pos i).
    rewrite (Nat.div_mod m (fact i)) by lia. rewrite (Nat.div_mod m' (fact i)) by lia.
    fold d d'. rewrite Ed, Em. reflexivity.
Qed.
Lemma permLoop_surj : forall i perm s, isPerm i s ->
  exists m q, m < fact i /\ permLoop i m (fact i) perm = Some q /\ forall j, j < i -> q j = perm (s j).
Proof.
  induction i as [|i IH]; intros perm s [S1 S2].
  - exists 0, perm. cbn. split; [lia|]. split; [reflexivity|]. intros; lia.
  - pose proof (S1 i (Nat.lt_succ_diag_r i)) as Bi.
    set (d := i - s i). assert (Ed : i - d = s i) by (unfold d; lia).
    set (perm2 := aset (aset perm i (perm (i - d))) (i - d) (perm i)).
    destruct (IH perm2 (fun j => swp i (i - d) (s j))) as (m1 & q & Hm1 & E & J).
    { split.
      - intros j Hj. assert (s j <> s i) by (intros C; apply S2 in C; lia). pose proof (S1 j (Nat.lt_lt_succ_r _ _ Hj)).
        unfold swp. rewrite Ed. destruct (Nat.eqb_spec (s j) i); [lia|]. destruct (Nat.eqb_spec (s j) (s i)); [lia|]. lia.
      - intros j k Hj Hk E2. apply (f_equal (swp i (i - d))) in E2. rewrite !swp_inv in E2. apply S2; lia. }
    pose proof (fact_pos i).
    exists (d * fact i + m1), q.
    assert (Hm : d * fact i + m1 < fact (S i)).
    { change (fact (S i)) with (S i * fact i). assert (d <= i) by (unfold d; lia). nia. }
    split; [exact Hm|]. split.
    + rewrite permLoop_eq by assumption.
      rewrite Nat.div_add_l by lia. rewrite Nat.div_small, Nat.add_0_r by assumption.
      rewrite Nat.add_comm, Nat.mod_add, Nat.mod_small by lia. exact E.
    + intros j Hj. destruct (Nat.eq_dec j i) as [->|N].
      * destruct (permLoop_spec i m1 perm2 Hm1) as (q2 & _ & E2 & K & _). rewrite E in E2. injection E2 as <-.
        rewrite K by lia. unfold perm2. rewrite swap_aset. unfold swp. rewrite Nat.eqb_refl, Ed. reflexivity.
      * rewrite J by lia. unfold perm2. rewrite swap_aset, swp_inv. reflexivity.
Qed.

Lemma getPermutation_unfold : forall n m, getPermutation n m = permLoop n m (fact n) (fun i => i).
Proof. intros. unfold getPermutation. rewrite base_fact. reflexivity. Qed.
Lemma getPermutation_perm : forall n m, m < fact n -> exists p, getPermutation n m = Some p /\ isPerm n p.
Proof.
  intros. rewrite getPermutation_unfold. destruct (permLoop_spec n m (fun i => i) H) as (q & s & E & K & [S1 S2] & J).
  exists q. split; [exact E|]. split.
  - intros. rewrite J by assumption. auto.
  - intros i j Hi Hj. rewrite !J by assumption. auto.
Qed.
Lemma getPermutation_inj : forall n m m' p p', m < fact n -> m' < fact n ->
  getPermutation n m = Some p -> getPermutation n m' = Some p' -> agree n p p' -> m = m'.
Proof.
  intros n m m' p p' H H0 E E' A. rewrite getPermutation_unfold in E, E'.
  apply (permLoop_inj n m m' (fun i => i) p p'); auto.
Qed.
Lemma getPermutation_surj : forall n s, isPerm n s ->
  exists m p, m < fact n /\ getPermutation n m = Some p /\ agree n p s.
Proof.
  intros. destruct (permLoop_surj n (fun i => i) s H) as (m & q & Hm & E & J).
  exists m, q. rewrite getPermutation_unfold. auto.
Qed.
Lemma permLoop_zero : forall i perm, exists q, permLoop i 0 (fact i) perm = Some q /\ forall j, q j = perm j.
Proof.
  induction i as [|i IH]; intros.
  - exists perm. auto.
  - rewrite permLoop_eq by apply fact_pos. pose proof (fact_pos i).
    rewrite Nat.div_0_l, Nat.mod_0_l by lia.
    destruct (IH (aset (aset perm i (perm (i - 0))) (i - 0) (perm i))) as (q & E & J).
    exists q. split; [exact E|]. intros. rewrite J, swap_aset. unfold swp. rewrite Nat.sub_0_r.
    destruct (Nat.eqb_spec j i); subst; auto.
Qed.
Lemma getPermutation_zero : forall n, getPermutation n 0 = Some (fun i => i).
Proof.
  intros. rewrite getPermutation_unfold. destruct (permLoop_zero n (fun i => i)) as (q & E & J).
  rewrite E. f_equal. extensionality j. apply J.
Qed.
Lemma getPermutation_oob : forall n m, 0 < n -> fact n <= m -> getPermutation n m = None.
Proof.
  intros. rewrite getPermutation_unfold. destruct n as [|n]; [lia|]. cbn [permLoop]. rewrite fact_div.
  assert (S n <= m / fact n).
  { apply Nat.div_le_lower_bound; [pose proof (fact_pos n); lia|]. change (fact (S n)) with (S n * fact n) in H0. lia. }
  destruct (Nat.ltb_spec n (m / fact n)); [reflexivity|lia].
Qed.
Lemma perm_lt : forall n m p, 0 < n -> getPermutation n m = Some p -> m < fact n.
Proof.
  intros. destruct (Nat.lt_ge_cases m (fact n)); [assumption|]. rewrite getPermutation_oob in H0 by assumption. discriminate.
Qed.

(** every value is taken *)
Lemma perm_onto : forall n p, isPerm n p -> forall k, k < n -> exists i, i < n /\ p i = k.
Proof.
  induction n as [|n IH]; intros p [P1 P2] k Hk; [lia|].
  destruct (Nat.eq_dec (p n) k) as [E|N]; [exists n; lia|].
  set (q := fun i => swp n (p n) (p i)).
  destruct (IH q) with (k := swp n (p n) k) as (i & Hi & E).
  - split.
    + intros i Hi. unfold q, swp. assert (p i <> p n) by (intros C; apply P2 in C; lia).
      pose proof (P1 i (Nat.lt_lt_succ_r _ _ Hi)). pose proof (P1 n (Nat.lt_succ_diag_r n)).
      destruct (Nat.eqb_spec (p i) n); [lia|]. destruct (Nat.eqb_spec (p i) (p n)); lia.
    + intros i j Hi Hj E. unfold q in E. apply (f_equal (swp n (p n))) in E. rewrite !swp_inv in E. apply P2; lia.
  - unfold swp. pose proof (P1 n (Nat.lt_succ_diag_r n)).
    destruct (Nat.eqb_spec k n); [lia|]. destruct (Nat.eqb_spec k (p n)); lia.
  - exists i. split; [lia|]. unfold q in E. apply (f_equal (swp n (p n))) in E. rewrite !swp_inv in E. exact E.
Qed.
Lemma perm_inverse : forall n p, isPerm n p ->
  exists q, isPerm n q /\ (forall i, i < n -> q (p i) = i) /\ (forall i, i < n -> p (q i) = i).
Proof.
  intros n p H.
  assert (D : exists q, forall k, k < n -> q k < n /\ p (q k) = k).
  { pose proof (perm_onto n p H) as On. clear H. revert On.
    assert (G : forall m, m <= n -> (forall k, k < n -> exists i, i < n /\ p i = k) -> exists q, forall k, k < m -> q k < n /\ p (q k) = k).
    { induction m as [|m IH]; intros Hm On.
      - exists (fun k => k). intros; lia.
      - destruct IH as (q & Q); [lia|exact On|]. destruct (On m) as (i & Hi & E); [lia|].
        exists (aset q m i). intros k Hk. unfold aset. destruct (Nat.eqb_spec k m); [subst; auto|]. apply Q. lia. }
    intros. apply G; auto. }
  destruct D as (q & Q). destruct H as [P1 P2]. exists q. repeat apply conj.
  - intros. apply Q. assumption.
  - intros i j Hi Hj E. rewrite <- (proj2 (Q i Hi)), <- (proj2 (Q j Hj)), E. reflexivity.
  - intros i Hi. pose proof (Q (p i) (P1 i Hi)) as [A B]. apply P2; auto.
  - intros. apply Q. assumption.
Qed.

(** ** Kuhn coordinates *)
Lemma r2kLoop_spec {A} : forall (add : A -> A -> A) dim p, (forall i j, i < dim -> j < dim -> p i = p j -> i = j) ->
  forall i pt, i < dim ->
  (forall j, j < i -> r2kLoop add p i pt (p j) = add (pt (p j)) (r2kLoop add p i pt (p (S j))))
  /\ (forall j, i <= j -> j < dim -> r2kLoop add p i pt (p j) = pt (p j))
  /\ (forall k, (forall j, j < dim -> k <> p j) -> r2kLoop add p i pt k = pt k).
Proof.
  intros add dim p Inj. induction i as [|i IH]; intros pt Hi.
  - cbn. repeat apply conj; auto; intros; lia.
  - cbn [r2kLoop]. set (pt' := aset pt (p i) (add (pt (p i)) (pt (p (S i))))).
    destruct (IH pt') as (A1 & A2 & A3); [lia|].
    repeat apply conj.
    + intros j Hj. destruct (Nat.eq_dec j i) as [->|N].
      * rewrite A2 by lia. rewrite (A2 (S i)) by lia. unfold pt'. rewrite aset_eq.
        rewrite aset_ne; [reflexivity|]. intros C. apply Inj in C; lia.
      * rewrite A1 by lia. unfold pt' at 1. rewrite aset_ne; [reflexivity|]. intros C. apply Inj in C; lia.
    + intros j Hj1 Hj2. rewrite A2 by lia. unfold pt'. rewrite aset_ne; [reflexivity|]. intros C. apply Inj in C; lia.
    + intros k Hk. rewrite A3 by assumption. unfold pt'. apply aset_ne. apply Hk. lia.
Qed.
(** referenceToKuhn: partial sums from the end of the permutation *)
Lemma r2k_spec {A} : forall (add : A -> A -> A) dim p pt, isPerm dim p ->
  (forall j, S j < dim -> referenceToKuhn add dim pt p (p j) = add (pt (p j)) (referenceToKuhn add dim pt p (p (S j))))
  /\ (0 < dim -> referenceToKuhn add dim pt p (p (dim - 1)) = pt (p (dim - 1)))
  /\ (forall k, dim <= k -> referenceToKuhn add dim pt p k = pt k).
Proof.
  intros add dim p pt [P1 P2]. unfold referenceToKuhn. destruct (Nat.eq_dec dim 0) as [->|N].
  - cbn. repeat apply conj; intros; auto; lia.
  - destruct (r2kLoop_spec add dim p P2 (dim - 1) pt) as (A1 & A2 & A3); [lia|].
    repeat apply conj.
    + intros. apply A1. lia.
    + intros. apply A2; lia.
    + intros k Hk. apply A3. intros j Hj. pose proof (P1 j Hj). lia.
Qed.
Lemma k2rFold_spec {A} : forall (sub : A -> A -> A) dim p pt, (forall i j, i < dim -> j < dim -> p i = p j -> i = j) ->
  forall n, n < dim ->
  let x := fold_left (fun point i => aset point (p i) (sub (point (p i)) (point (p (S i))))) (seq 0 n) pt in
  (forall j, j < n -> x (p j) = sub (pt (p j)) (pt (p (S j))))
  /\ (forall j, n <= j -> j < dim -> x (p j) = pt (p j))
  /\ (forall k, (forall j, j < dim -> k <> p j) -> x k = pt k).
Proof.
  intros sub dim p pt Inj. induction n as [|n IH]; intros Hn.
  - cbn. repeat apply conj; auto; intros; lia.
  - cbv zeta. rewrite seq_S, fold_left_app. cbn [fold_left]. rewrite Nat.add_0_l.
    destruct IH as (A1 & A2 & A3); [lia|].
    set (x := fold_left (fun point i => aset point (p i) (sub (point (p i)) (point (p (S i))))) (seq 0 n) pt) in *.
    repeat apply conj.
    + intros j Hj. destruct (Nat.eq_dec j n) as [->|N].
      * rewrite aset_eq. rewrite (A2 n), (A2 (S n)) by lia. reflexivity.
      * rewrite aset_ne; [apply A1; lia|]. intros C. apply Inj in C; lia.
    + intros j H1 H2. rewrite aset_ne; [apply A2; lia|]. intros C. apply Inj in C; lia.
    + intros k Hk. rewrite aset_ne; [auto|]. apply Hk. lia.
Qed.
Lemma k2r_spec {A} : forall (sub : A -> A -> A) dim p pt, isPerm dim p ->
  (forall j, S j < dim -> kuhnToReference sub dim pt p (p j) = sub (pt (p j)) (pt (p (S j))))
  /\ (0 < dim -> kuhnToReference sub dim pt p (p (dim - 1)) = pt (p (dim - 1)))
  /\ (forall k, dim <= k -> kuhnToReference sub dim pt p k = pt k).
Proof.
  intros sub dim p pt [P1 P2]. unfold kuhnToReference. destruct (Nat.eq_dec dim 0) as [->|N].
  - cbn. repeat apply conj; intros; auto; lia.
  - destruct (k2rFold_spec sub dim p pt P2 (dim - 1)) as (A1 & A2 & A3); [lia|].
    repeat apply conj.
    + intros. apply A1. lia.
    + intros. apply A2; lia.
    + intros k Hk. apply A3. intros j Hj. pose proof (P1 j Hj). lia.
Qed.

Lemma k2r_r2k : forall dim p (x : Vec), isPerm dim p ->
  kuhnToReference Rminus dim (referenceToKuhn Rplus dim x p) p = x.
Proof.
  intros dim p x H. extensionality k.
  destruct (k2r_spec Rminus dim p (referenceToKuhn Rplus dim x p) H) as (A1 & A2 & A3).
  destruct (r2k_spec Rplus dim p x H) as (B1 & B2 & B3).
  destruct (Nat.lt_ge_cases k dim) as [L|L].
  - destruct (perm_onto dim p H k L) as (i & Hi & <-).
    destruct (Nat.eq_dec (S i) dim) as [E|N].
    + assert (i = dim - 1) by lia. subst i. rewrite A2, B2 by lia. reflexivity.
    + rewrite A1, B1 by lia. ring.
  - rewrite A3, B3 by assumption. reflexivity.
Qed.
Lemma r2k_k2r : forall dim p (y : Vec), isPerm dim p ->
  referenceToKuhn Rplus dim (kuhnToReference Rminus dim y p) p = y.
Proof.
  intros dim p y H. extensionality k.
  destruct (k2r_spec Rminus dim p y H) as (A1 & A2 & A3).
  destruct (r2k_spec Rplus dim p (kuhnToReference Rminus dim y p) H) as (B1 & B2 & B3).
  destruct (Nat.lt_ge_cases k dim) as [L|L].
  - destruct (perm_onto dim p H k L) as (i & Hi & <-).
    assert (G : forall n i, i + n = dim - 1 -> i < dim -> referenceToKuhn Rplus dim (kuhnToReference Rminus dim y p) p (p i) = y (p i)).
    { induction n as [|n IH]; intros j E Hj.
      - assert (j = dim - 1) by lia. subst j. rewrite B2, A2 by lia. reflexivity.
      - rewrite B1 by lia. rewrite IH by lia. rewrite A1 by lia. ring. }
    apply (G (dim - 1 - i)); lia.
  - rewrite B3, A3 by assumption. reflexivity.
Qed.

(** ** binomial coefficients *)
Lemma binom_0 : forall n, binom n 0 = 1. Proof. destruct n; reflexivity. Qed.
Lemma binom_S : forall n k, binom (S n) (S k) = binom n k + binom n (S k). Proof. reflexivity. Qed.
Lemma binom_gt : forall n k, n < k -> binom n k = 0.
Proof. induction n as [|n IH]; intros [|k] H; try lia; [reflexivity|]. rewrite binom_S, !IH by lia. reflexivity. Qed.
Lemma binom_diag : forall n, binom n n = 1.
Proof. induction n as [|n IH]; [reflexivity|]. rewrite binom_S, IH, binom_gt by lia. reflexivity. Qed.
Lemma binom_mono : forall k n m, n <= m -> binom n k <= binom m k.
Proof.
  intros k n m H. induction H as [|m H IH]; [lia|].
  destruct k as [|k]; [rewrite !binom_0 in *; lia|]. rewrite binom_S. lia.
Qed.

(** the term of pointIndex for k remaining dimensions *)
Definition pterm (k x : nat) : nat := binom (k + x - 1) k.
Lemma pterm_0 : forall k, 0 < k -> pterm k 0 = 0.
Proof. intros. unfold pterm. apply binom_gt. lia. Qed.
Lemma pterm_mono : forall k x y, x <= y -> pterm k x <= pterm k y.
Proof. intros. unfold pterm. apply binom_mono. lia. Qed.
Lemma pterm_S : forall k c, pterm (S k) (S c) = binom (k + c) k + pterm (S k) c.
Proof.
  intros. unfold pterm. replace (S k + S c - 1) with (S (k + c)) by lia. rewrite binom_S.
  replace (S k + c - 1) with (k + c) by lia. reflexivity.
Qed.
Lemma pterm_next : forall k c, pterm k (S c) = binom (k + c) k.
Proof. intros. unfold pterm. f_equal. lia. Qed.
(** the tail of the sum: k remaining coordinates given by u 0 .. u (k-1) *)
Fixpoint psum (k : nat) (u : nat -> nat) : nat :=
  match k with O => 0 | S k' => pterm k (u 0) + psum k' (fun i => u (S i)) end.
Lemma pointIndex_fold : forall n dim v s, n <= dim ->
  fold_left (fun index i => index + binom (dim - i + v i - 1) (dim - i)) (seq (dim - n) n) s
  = s + psum n (fun i => v (dim - n + i)).
Proof.
  induction n as [|n IH]; intros dim v s H.
  - cbn. lia.
  - cbn [seq fold_left psum]. rewrite (Nat.add_0_r (dim - S n)). replace (S (dim - S n)) with (dim - n) by lia.
    rewrite IH by lia. unfold pterm. replace (dim - (dim - S n)) with (S n) by lia.
    rewrite Nat.add_assoc. f_equal. f_equal. extensionality i. f_equal. lia.
Qed.
Lemma pointIndex_psum : forall dim v, pointIndex dim v = psum dim v.
Proof.
  intros. unfold pointIndex. pose proof (pointIndex_fold dim dim v 0 (Nat.le_refl dim)) as E. rewrite Nat.sub_diag in E.
  rewrite E. reflexivity.
Qed.
(** weakly decreasing *)
Definition decr (k : nat) (u : nat -> nat) : Prop := forall i, S i < k -> u (S i) <= u i.
Lemma decr_tl : forall k u, decr (S k) u -> decr k (fun i => u (S i)).
Proof. intros k u H i Hi. apply H. lia. Qed.
Lemma psum_agree : forall k u w, agree k u w -> psum k u = psum k w.
Proof.
  induction k as [|k IH]; intros u w H; [reflexivity|]. cbn [psum]. rewrite (H 0) by lia. f_equal. apply IH.
  intros i Hi. apply H. lia.
Qed.
(** hockey stick: the tail is below the number of points of width c *)
Lemma psum_bound : forall k u c, (0 < k -> u 0 <= c) -> decr k u -> psum k u < binom (k + c) k.
Proof.
  induction k as [|k IH]; intros u c Hc D.
  - rewrite binom_0. cbn. lia.
  - cbn [psum]. assert (psum k (fun i => u (S i)) < binom (k + u 0) k).
    { apply IH; [intros; apply D; lia|]. apply decr_tl. assumption. }
    rewrite <- pterm_next. pose proof (pterm_mono (S k) (S (u 0)) (S c)). specialize (Hc ltac:(lia)).
    specialize (H0 ltac:(lia)). rewrite pterm_S in H0 at 1. lia.
Qed.
Lemma psum_inj : forall k u w, decr k u -> decr k w -> psum k u = psum k w -> agree k u w.
Proof.
  induction k as [|k IH]; intros u w Du Dw E; [intros i Hi; lia|].
  cbn [psum] in E.
  assert (B : forall a b, decr (S k) a -> pterm (S k) (a 0) + psum k (fun i => a (S i)) = pterm (S k) (b 0) + psum k (fun i => b (S i)) -> ~ a 0 < b 0).
  { intros a b Da Eab L.
    assert (psum k (fun i => a (S i)) < binom (k + a 0) k).
    { apply psum_bound; [intros; apply Da; lia|]. apply decr_tl. assumption. }
    pose proof (pterm_mono (S k) (S (a 0)) (b 0) ltac:(lia)). rewrite pterm_S in H0. lia. }
  assert (E0 : u 0 = w 0).
  { pose proof (B u w Du E). symmetry in E. pose proof (B w u Dw E). lia. }
  rewrite E0 in E.
  assert (A : agree k (fun i => u (S i)) (fun i => w (S i))).
  { apply IH; [apply decr_tl; assumption..|lia]. }
  intros [|i] Hi; [exact E0|]. apply A. lia.
Qed.
Lemma psum_zero : forall k u, (forall i, i < k -> u i = 0) -> psum k u = 0.
Proof.
  induction k as [|k IH]; intros u H; [reflexivity|]. cbn [psum]. rewrite H, pterm_0 by lia.
  rewrite IH; [reflexivity|]. intros. apply H. lia.
Qed.
Lemma psum_const : forall k u c, (forall i, i < k -> u i = c) -> psum k u + 1 = binom (k + c) k.
Proof.
  induction k as [|k IH]; intros u c H; [rewrite binom_0; reflexivity|]. cbn [psum]. rewrite H by lia.
  rewrite <- Nat.add_assoc, (IH (fun i => u (S i)) c) by (intros; apply H; lia).
  rewrite <- (pterm_next (S k) c), pterm_S. lia.
Qed.
Lemma psum_split : forall n k u, psum (n + k) u = fold_right (fun i s => pterm (n + k - i) (u i) + s) 0 (seq 0 n) + psum k (fun i => u (n + i)).
Proof.
  induction n as [|n IH]; intros k u.
  - reflexivity.
  - cbn [plus psum seq fold_right]. rewrite IH. rewrite Nat.add_assoc. f_equal. f_equal.
    clear. rewrite <- seq_shift. generalize (seq 0 n). intros l.
    induction l as [|a l IH]; [reflexivity|]. cbn [map fold_right]. rewrite IH. reflexivity.
Qed.
Lemma fold_pterm_agree : forall n t u w, (forall i, i < n -> u i = w i) ->
  fold_right (fun i s => pterm (t - i) (u i) + s) 0 (seq 0 n) = fold_right (fun i s => pterm (t - i) (w i) + s) 0 (seq 0 n).
Proof.
  intros n t u w H. assert (G : forall l, (forall i, In i l -> i < n) ->
    fold_right (fun i s => pterm (t - i) (u i) + s) 0 l = fold_right (fun i s => pterm (t - i) (w i) + s) 0 l).
  { induction l as [|a l IH]; intros K; [reflexivity|]. cbn [fold_right]. rewrite IH by (intros; apply K; right; assumption).
    rewrite H; [reflexivity|]. apply K. left. reflexivity. }
  apply G. intros i. rewrite in_seq. lia.
Qed.

(** ** one increment; [v] is the current vector, [o] the one at the start of the loop *)
Lemma incLoop_spec : forall i dim o v, i <= dim -> 0 < i -> decr dim o ->
  (forall j, j < i -> v j = o j) -> (forall j, i <= j -> j < dim -> v j = 0 /\ o j = o (i - 1)) ->
  (forall j, dim <= j -> v j = o j) ->
  exists r c, incLoop i v = r /\ c < i /\ (forall j, j < c -> r j = o j) /\ r c = S (o c)
    /\ (forall j, c < j -> j < dim -> r j = 0 /\ o j = o c)
    /\ (forall j, dim <= j -> r j = o j)
    /\ (c = 0 \/ S (o c) <= o (c - 1)).
Proof.
  induction i as [|i IH]; intros dim o v Hi Pi Dec Lo Hi2 Out; [lia|].
  cbn [incLoop]. rewrite aset_eq.
  destruct (Nat.eqb_spec i 0) as [E|N].
  - subst i. cbn [orb]. exists (aset v 0 (v 0 + 1)), 0. repeat apply conj; auto; try (intros; lia).
    + rewrite aset_eq, Lo by lia. lia.
    + intros j H H2. rewrite aset_ne by lia. apply (Hi2 j); lia.
    + intros j H. rewrite aset_ne by lia. auto.
  - cbn [orb]. rewrite aset_ne by lia. destruct (Nat.leb_spec (v i + 1) (v (i - 1))) as [L|L].
    + exists (aset v i (v i + 1)), i. rewrite !Lo in L by lia. repeat apply conj; auto; try (intros; lia).
      * intros j Hj. rewrite aset_ne by lia. apply Lo. lia.
      * rewrite aset_eq, Lo by lia. lia.
      * intros j H H2. rewrite aset_ne by lia. destruct (Hi2 j) as [A B]; [lia..|]. split; [exact A|].
        rewrite B. f_equal. lia.
      * intros j H. rewrite aset_ne by lia. auto.
    + rewrite !Lo in L by lia. assert (o i = o (i - 1)).
      { pose proof (Dec (i - 1)). replace (S (i - 1)) with i in H by lia. specialize (H ltac:(lia)). lia. }
      destruct (IH dim o (aset (aset v i (v i + 1)) i 0)) as (r & c & E & Hc & R); try lia; auto.
      * intros j Hj. rewrite !aset_ne by lia. apply Lo. lia.
      * intros j H1 H2. destruct (Nat.eq_dec j i) as [->|M].
        -- rewrite aset_eq. auto.
        -- rewrite !aset_ne by lia. destruct (Hi2 j) as [A B]; [lia..|]. split; [exact A|]. rewrite B.
           replace (S i - 1) with i by lia. assumption.
      * intros j Hj. rewrite !aset_ne by lia. auto.
      * exists r, c. split; [exact E|]. split; [lia|]. exact R.
Qed.
Lemma inc_spec : forall dim o, 0 < dim -> decr dim o ->
  exists c, c < dim /\ (forall j, j < c -> incLoop dim o j = o j) /\ incLoop dim o c = S (o c)
    /\ (forall j, c < j -> j < dim -> incLoop dim o j = 0 /\ o j = o c)
    /\ (forall j, dim <= j -> incLoop dim o j = o j)
    /\ (c = 0 \/ S (o c) <= o (c - 1)).
Proof.
  intros dim o H D. destruct (incLoop_spec dim dim o o) as (r & c & E & R); auto; try (intros; lia).
  exists c. rewrite E. exact R.
Qed.
Lemma inc_decr : forall dim o, 0 < dim -> decr dim o -> decr dim (incLoop dim o).
Proof.
  intros dim o H D. destruct (inc_spec dim o H D) as (c & Hc & A1 & A2 & A3 & A4 & A5).
  intros i Hi. destruct (Nat.lt_trichotomy i c) as [L|[->|L]].
  - rewrite (A1 i) by assumption. destruct (Nat.eq_dec (S i) c) as [<-|N].
    + rewrite A2. destruct A5 as [A5|A5]; [lia|]. rewrite Nat.sub_succ, Nat.sub_0_r in A5. lia.
    + rewrite A1 by lia. apply D. assumption.
  - rewrite (proj1 (A3 (S c) ltac:(lia) Hi)). lia.
  - rewrite (proj1 (A3 (S i) ltac:(lia) Hi)). lia.
Qed.
Lemma inc_index : forall dim o, 0 < dim -> decr dim o -> pointIndex dim (incLoop dim o) = S (pointIndex dim o).
Proof.
  intros dim o H D. rewrite !pointIndex_psum. destruct (inc_spec dim o H D) as (c & Hc & A1 & A2 & A3 & A4 & A5).
  set (k := dim - c - 1). assert (E : dim = c + S k) by (unfold k; lia).
  rewrite E. rewrite !psum_split. rewrite <- E.
  rewrite (fold_pterm_agree c dim (incLoop dim o) o) by (intros; apply A1; assumption).
  assert (G : psum (S k) (fun i => incLoop dim o (c + i)) = S (psum (S k) (fun i => o (c + i)))).
  { cbn [psum]. rewrite !Nat.add_0_r, A2.
    rewrite (psum_zero k) by (intros i Hi; apply A3; lia).
    rewrite pterm_S. rewrite <- (psum_const k (fun i => o (c + S i)) (o c)) by (intros i Hi; apply A3; lia). lia. }
  rewrite G. lia.
Qed.
Lemma inc_ext : forall dim v w, agree dim v w -> agree dim (incLoop dim v) (incLoop dim w).
Proof.
  intros dim. assert (G : forall i v w, i <= dim -> agree dim v w -> agree dim (incLoop i v) (incLoop i w)).
  { induction i as [|i IH]; intros v w Hi A; [exact A|]. cbn [incLoop]. rewrite !aset_eq.
    assert (B : agree dim (aset v i (v i + 1)) (aset w i (w i + 1))).
    { intros j Hj. unfold aset. rewrite (A i) by lia. destruct (Nat.eqb j i); auto. }
    assert (Ei : v i = w i) by (apply A; lia).
    assert (Ej : aset v i (v i + 1) (i - 1) = aset w i (w i + 1) (i - 1)) by (apply B; lia).
    rewrite Ej, Ei. destruct (Nat.eqb i 0 || _); [rewrite <- Ei at 1; rewrite Ei; rewrite Ei in B; exact B|].
    apply IH; [lia|]. intros j Hj. unfold aset. destruct (Nat.eqb j i); auto. }
  intros. apply G; auto.
Qed.
