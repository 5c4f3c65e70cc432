(** Signed 32-bit arithmetic of the simplex refinement agrees with the exact model as long as the
    product (n+1)...(n+dim) is representable. *)
From Coq Require Import PeanoNat NArith ZArith Bool List Factorial Arith Lia Psatz.
From Verif Require Import M_Type M_RefTopo M_RefGeo M_QuadFactory M_Refine S_Refine S_Refine2 P_Refine1 P_Refine2 P_Refine3 P_Refine5 P_Refine6 P_Refine7 M_RefineInt.
Import ListNotations.

Notation fits n := (Z.of_nat n <= INT_MAX)%Z.
Lemma fits_le : forall a b, a <= b -> fits b -> fits a.
Proof. intros. lia. Qed.
Lemma ck_ok : forall n, fits n -> ck n = Some n.
Proof. intros n H. unfold ck. destruct (Z.leb_spec (Z.of_nat n) INT_MAX); [reflexivity|lia]. Qed.
Lemma ck_none : forall n, ~ fits n -> ck n = None.
Proof. intros n H. unfold ck. destruct (Z.leb_spec (Z.of_nat n) INT_MAX); [lia|reflexivity]. Qed.
Lemma ck_le : forall a b, a <= b -> ck a = None -> ck b = None.
Proof. intros a b H. unfold ck. destruct (Z.leb_spec (Z.of_nat a) INT_MAX); [discriminate|]. intros _. destruct (Z.leb_spec (Z.of_nat b) INT_MAX); [lia|reflexivity]. Qed.
Lemma foldO_ext {A S} : forall (f g : S -> A -> option S) l s, (forall s a, In a l -> f s a = g s a) -> foldO f l s = foldO g l s.
Proof.
  intros f g. induction l as [|a l IH]; intros s H; [reflexivity|]. cbn [foldO]. rewrite (H s a) by (left; reflexivity).
  destruct (g s a); [|reflexivity]. cbn [obind]. apply IH. intros. apply H. right. assumption.
Qed.

(** products with positive factors: undefined iff the result is not representable *)
Definition prodl {A} (f : A -> nat) (l : list A) (b : nat) : nat := fold_left (fun b a => b * f a) l b.
Lemma prodl_ge {A} : forall (f : A -> nat) l b, (forall a, In a l -> 1 <= f a) -> b <= prodl f l b.
Proof.
  intros f. induction l as [|a l IH]; intros b H; [apply Nat.le_refl|]. cbn [prodl fold_left].
  apply Nat.le_trans with (b * f a); [|apply IH; intros; apply H; right; assumption].
  pose proof (H a (or_introl eq_refl)). nia.
Qed.
Lemma foldO_prod {A} : forall (f : A -> nat) l b, (forall a, In a l -> 1 <= f a) -> fits b ->
  foldO (fun b a => ck (b * f a)) l b = ck (prodl f l b).
Proof.
  intros f. induction l as [|a l IH]; intros b H F; cbn [foldO prodl fold_left].
  - symmetry. apply ck_ok. assumption.
  - assert (H' : forall x, In x l -> 1 <= f x) by (intros; apply H; right; assumption).
    destruct (Z_le_gt_dec (Z.of_nat (b * f a)) INT_MAX) as [L|L].
    + rewrite ck_ok by assumption. cbn [obind]. apply IH; assumption.
    + rewrite ck_none by lia. symmetry. cbn [obind]. apply ck_none. pose proof (prodl_ge f l (b * f a) H'). unfold prodl in H0. lia.
Qed.
Lemma prodl_mul {A} : forall (f : A -> nat) l b, prodl f l b = b * prodl f l 1.
Proof.
  intros f. induction l as [|a l IH]; intros b; [cbn; lia|]. cbn [prodl fold_left]. fold (prodl f l (b * f a)) (prodl f l (1 * f a)).
  rewrite (IH (b * f a)), (IH (1 * f a)). lia.
Qed.
Lemma prodl_app {A} : forall (f : A -> nat) l m b, prodl f (l ++ m) b = prodl f m (prodl f l b).
Proof. intros. apply fold_left_app. Qed.
Lemma prodl_seq0 : forall n, prodl (fun k => k + 1) (seq 0 n) 1 = fact n.
Proof.
  induction n as [|n IH]; [reflexivity|]. rewrite seq_S, prodl_app, IH. cbn [prodl fold_left Nat.add]. cbn [fact]. lia.
Qed.
Lemma fits_one : fits 1. Proof. unfold INT_MAX. lia. Qed.
Lemma factorialI_ck : forall n, factorialI n = ck (fact n).
Proof.
  intros n. unfold factorialI. rewrite <- prodl_seq0. apply foldO_prod; [intros; lia|apply fits_one].
Qed.
Lemma getPermutationI_ck : forall n m, getPermutationI n m = obind (ck (fact n)) (fun _ => getPermutation n m).
Proof.
  intros n m. unfold getPermutationI.
  rewrite (foldO_prod (fun i => i)); [|intros a H; apply in_seq in H; lia|apply fits_one].
  unfold prodl. rewrite base_fact. unfold ck. destruct (Z.of_nat (fact n) <=? INT_MAX)%Z; [|reflexivity].
  cbn [obind]. rewrite getPermutation_unfold. reflexivity.
Qed.
Fixpoint zfact (n : nat) : Z := match n with O => 1%Z | S m => (Z.of_nat (S m) * zfact m)%Z end.
Lemma zfact_ok : forall n, Z.of_nat (fact n) = zfact n.
Proof. induction n as [|n IH]; [reflexivity|]. change (fact (S n)) with (S n * fact n). rewrite Nat2Z.inj_mul, IH. reflexivity. Qed.
Lemma fact_fits : forall n, fits (fact n) <-> n <= 12.
Proof.
  intros n. split; intros H.
  - destruct (Nat.le_gt_cases n 12) as [|L]; [assumption|]. assert (M : fact 13 <= fact n) by (apply fact_le; lia).
    apply Nat2Z.inj_le in M. rewrite zfact_ok in M.
    assert (X : zfact 13 = 6227020800%Z) by (vm_compute; reflexivity). rewrite X in M. unfold INT_MAX in H. lia.
  - assert (M : fact n <= fact 12) by (apply fact_le; lia). apply Nat2Z.inj_le in M. rewrite (zfact_ok 12) in M.
    assert (X : zfact 12 = 479001600%Z) by (vm_compute; reflexivity). rewrite X in M. unfold INT_MAX. lia.
Qed.

(** ** power *)
Lemma prodl_const : forall m p, prodl (fun _ : nat => m) (seq 0 p) 1 = m ^ p.
Proof. intros m. induction p as [|p IH]; [reflexivity|]. rewrite seq_S, prodl_app, IH. cbn [prodl fold_left]. rewrite Nat.pow_succ_r'. lia. Qed.
Definition powOk (power : nat -> nat -> option nat) : Prop := forall m p, 0 < m -> fits (m ^ p) -> power m p = Some (m ^ p).
Lemma powerI_ck : forall m p, 0 < m -> powerI m p = ck (m ^ p).
Proof. intros m p H. unfold powerI. rewrite <- prodl_const. apply (foldO_prod (fun _ => m)); [intros; lia|apply fits_one]. Qed.
Lemma powerI_ok : powOk powerI.
Proof. intros m p H F. rewrite powerI_ck by assumption. apply ck_ok. assumption. Qed.

(** ** binomial *)
Lemma fall_fact : forall n k, k <= n -> fact (n - k) * prodl (fun i => i + 1) (seq (n - k) k) 1 = fact n.
Proof.
  intros n k H. rewrite <- (prodl_mul (fun i => i + 1) (seq (n - k) k) (fact (n - k))), <- (prodl_seq0 (n - k)), <- prodl_app.
  replace (seq 0 (n - k) ++ seq (n - k) k) with (seq 0 n); [apply prodl_seq0|].
  replace n with (n - k + k) at 1 by lia. rewrite seq_app. reflexivity.
Qed.
Lemma binom_fact : forall n k, k <= n -> binom n k * (fact k * fact (n - k)) = fact n.
Proof.
  induction n as [|n IH]; intros k H.
  - replace k with 0 by lia. reflexivity.
  - destruct k as [|k]; [rewrite binom_0; cbn [fact]; rewrite Nat.sub_0_r; cbn [fact]; lia|].
    rewrite binom_S. destruct (Nat.eq_dec k n) as [->|N].
    + rewrite binom_diag, binom_gt by lia. rewrite Nat.sub_diag. cbn [fact]. lia.
    + pose proof (IH k ltac:(lia)) as A. pose proof (IH (S k) ltac:(lia)) as B.
      replace (S n - S k) with (n - k) by lia.
      assert (X : fact (n - k) = (n - k) * fact (n - S k)) by (replace (n - k) with (S (n - S k)) at 1 by lia; cbn [fact]; replace (S (n - S k)) with (n - k) by lia; replace (n - k) with (S (n - S k)) by lia; cbn [fact]; lia).
      assert (Y : fact (S k) = S k * fact k) by reflexivity.
      assert (Z' : fact (S n) = S n * fact n) by reflexivity.
      rewrite Z'. rewrite Nat.mul_add_distr_r.
      assert (E1 : binom n k * (fact (S k) * fact (n - k)) = S k * fact n) by (rewrite Y, <- A; ring).
      assert (E2 : binom n (S k) * (fact (S k) * fact (n - k)) = (n - k) * fact n) by (rewrite X, <- B; ring).
      rewrite E1, E2. replace (S n) with (S k + (n - k)) by lia. ring.
Qed.
Lemma binom_sym : forall n k, k <= n -> binom n (n - k) = binom n k.
Proof.
  intros n k H. pose proof (binom_fact n k H) as A. pose proof (binom_fact n (n - k) ltac:(lia)) as B.
  replace (n - (n - k)) with k in B by lia. pose proof (fact_pos k). pose proof (fact_pos (n - k)).
  apply (Nat.mul_cancel_r _ _ (fact k * fact (n - k))); [nia|]. rewrite A, <- B. ring.
Qed.
Lemma fall_binom : forall n k, k <= n -> prodl (fun i => i + 1) (seq (n - k) k) 1 = fact k * binom n k.
Proof.
  intros n k H. pose proof (fall_fact n k H) as A. pose proof (binom_fact n k H) as B. pose proof (fact_pos (n - k)).
  apply (Nat.mul_cancel_l _ _ (fact (n - k))); [lia|]. rewrite A, <- B. ring.
Qed.
Definition binOk (binomial : nat -> nat -> option nat) : Prop := forall n k,
  (n < k -> binomial n k = Some 0)
  /\ (k <= n -> fits (2 * k) -> fits (fact k * binom n k) -> binomial n k = Some (binom n k)).
Lemma binomialI_ok : binOk binomialI.
Proof.
  intros n k. split; intros H; unfold binomialI.
  - destruct (Nat.ltb_spec n k); [reflexivity|lia].
  - intros F2 F. destruct (Nat.ltb_spec n k); [lia|]. rewrite ck_ok by assumption. cbn [obind].
    set (k' := if n <? 2 * k then n - k else k).
    assert (K : k' <= k /\ k' <= n /\ binom n k' = binom n k).
    { unfold k'. destruct (Nat.ltb_spec n (2 * k)); [|auto]. split; [lia|]. split; [lia|]. apply binom_sym. assumption. }
    destruct K as (K1 & K2 & KE).
    rewrite (foldO_prod (fun i => i + 1)); [|intros; lia|apply fits_one].
    rewrite fall_binom, KE by assumption.
    assert (FL : fact k' <= fact k) by (apply fact_le; assumption).
    assert (BP : 0 < binom n k) by (pose proof (binom_fact n k H); pose proof (fact_pos n); destruct (binom n k); lia).
    rewrite ck_ok by (apply (fits_le _ (fact k * binom n k)); [nia|assumption]). cbn [obind].
    rewrite factorialI_ck, ck_ok by (apply (fits_le _ (fact k * binom n k)); [nia|assumption]). cbn [obind].
    f_equal. rewrite Nat.mul_comm. apply Nat.div_mul. pose proof (fact_pos k'). lia.
Qed.

(** ** the loops *)
Lemma incLoopI_ok : forall i v, (forall j, j < i -> fits (v j + 1)) -> incLoopI i v = Some (incLoop i v).
Proof.
  induction i as [|i IH]; intros v H; [reflexivity|]. cbn [incLoopI incLoop]. rewrite ck_ok by (apply H; lia). cbn [obind].
  destruct (Nat.eqb i 0 || _); [reflexivity|]. apply IH. intros j Hj. rewrite !aset_ne by lia. apply H. lia.
Qed.
Lemma outsideLoopI_ok : forall p B n i c, (forall j, c j <= B) -> fits (B + n) -> outsideLoopI p n i c = Some (outsideLoop p n i c).
Proof.
  intros p. intros B n. revert B. induction n as [|n IH]; intros B i c H F; [reflexivity|]. cbn [outsideLoopI outsideLoop].
  rewrite ck_ok by (apply (fits_le _ (B + S n)); [pose proof (H (p i)); lia|assumption]). cbn [obind].
  destruct (_ && _); [reflexivity|]. apply (IH (S B)); [|replace (S B + n) with (B + S n) by lia; assumption].
  intros j. unfold aset. destruct (Nat.eqb j (p i)); [pose proof (H (p i)); lia|pose proof (H j); lia].
Qed.

Section Simplex.
Variables (bin pow : nat -> nat -> option nat).
Hypothesis Hbin : binOk bin.
Hypothesis Hpow : powOk pow.
Variables (dim n : nat).
Hypothesis Hd : 0 < dim.
(** (n+1) ... (n+dim) *)
Hypothesis Hf : fits (fact dim * sx_nVertices dim n).

Lemma nv_pos : 0 < sx_nVertices dim n.
Proof. unfold sx_nVertices. pose proof (binom_mono dim dim (dim + n) ltac:(lia)). rewrite binom_diag in H. lia. Qed.
Lemma fact_dim_fits : fits (fact dim).
Proof. apply (fits_le _ (fact dim * sx_nVertices dim n)); [pose proof nv_pos; nia|assumption]. Qed.
Lemma nv_fits : fits (sx_nVertices dim n).
Proof. apply (fits_le _ (fact dim * sx_nVertices dim n)); [pose proof (fact_pos dim); nia|assumption]. Qed.
Lemma dim12 : dim <= 12.
Proof. apply fact_fits. apply fact_dim_fits. Qed.
Lemma dimn_fits : fits (dim + n).
Proof.
  apply (fits_le _ (fact dim * sx_nVertices dim n)); [|assumption].
  unfold sx_nVertices. rewrite <- fall_binom by lia. replace (dim + n - dim) with n by lia.
  destruct dim as [|d]; [lia|]. rewrite seq_S, prodl_app. cbn [prodl fold_left]. fold (prodl (fun i => i + 1) (seq n d) 1).
  pose proof (prodl_ge (fun i => i + 1) (seq n d) 1 ltac:(intros; cbv beta; lia)). nia.
Qed.
Lemma binom_up : forall k m, k <= dim -> m <= k + n -> k <= m -> fact k * binom m k <= fact dim * sx_nVertices dim n.
Proof.
  intros k m Hk Hm Hkm. assert (binom m k <= binom (k + n) k) by (apply binom_mono; assumption).
  assert (binom (k + n) k <= binom (dim + n) dim).
  { rewrite <- (binom_sym (k + n) k), <- (binom_sym (dim + n) dim) by lia. replace (k + n - k) with n by lia. replace (dim + n - dim) with n by lia.
    apply binom_mono. lia. }
  pose proof (fact_le k dim Hk). unfold sx_nVertices. apply Nat.mul_le_mono; lia.
Qed.
Lemma nVerticesI_ok : sx_nVerticesI bin dim n = Some (sx_nVertices dim n).
Proof.
  unfold sx_nVerticesI. rewrite ck_ok by apply dimn_fits. cbn [obind]. apply (Hbin (dim + n) dim); [lia| |exact Hf].
  pose proof dim12. unfold INT_MAX. lia.
Qed.
Lemma pow_le_prod : forall d, n ^ d <= prodl (fun i => i + 1) (seq n d) 1.
Proof.
  induction d as [|d IH]; [cbn; lia|]. rewrite seq_S, prodl_app, Nat.pow_succ_r'. cbn [prodl fold_left]. fold (prodl (fun i => i + 1) (seq n d) 1). nia.
Qed.
Lemma ne_fits : fits (n ^ dim).
Proof.
  apply (fits_le _ (fact dim * sx_nVertices dim n)); [|assumption].
  unfold sx_nVertices. rewrite <- fall_binom by lia. replace (dim + n - dim) with n by lia. apply pow_le_prod.
Qed.
Lemma nElementsI_ok : 0 < n -> sx_nElementsI pow dim n = Some (sx_nElements dim n).
Proof. intros Hn. unfold sx_nElementsI, sx_nElements. apply Hpow; [assumption|apply ne_fits]. Qed.

(** point indices *)
Lemma pointIndexI_ok : forall v, gridPoint dim n v -> pointIndexI bin dim v = Some (pointIndex dim v).
Proof.
  intros v G. assert (D := gridPoint_decr _ _ _ G).
  assert (T : pointIndex dim v < sx_nVertices dim n) by (apply index_bound; auto; apply G; assumption).
  unfold pointIndexI, pointIndex in *.
  assert (X : forall l s, (forall i, In i l -> i < dim) ->
    fold_left (fun index i => index + binom (dim - i + v i - 1) (dim - i)) l s < sx_nVertices dim n ->
    foldO (fun index i => obind (ck (dim - i + v i)) (fun a => obind (bin (a - 1) (dim - i)) (fun b => ck (index + b)))) l s
    = Some (fold_left (fun index i => index + binom (dim - i + v i - 1) (dim - i)) l s)).
  { induction l as [|a l IH]; intros s Hl B; [reflexivity|]. cbn [foldO fold_left] in *.
    assert (Ha : a < dim) by (apply Hl; left; reflexivity).
    assert (Va : v a <= n) by (pose proof (decr_le dim v 0 a D ltac:(lia) Ha); pose proof (proj1 G Hd); lia).
    rewrite ck_ok by (apply (fits_le _ (dim + n)); [lia|apply dimn_fits]). cbn [obind].
    assert (E : bin (dim - a + v a - 1) (dim - a) = Some (binom (dim - a + v a - 1) (dim - a))).
    { destruct (Hbin (dim - a + v a - 1) (dim - a)) as [H1 H2].
      destruct (Nat.lt_ge_cases (dim - a + v a - 1) (dim - a)) as [L|L].
      - rewrite H1, binom_gt by assumption. reflexivity.
      - apply H2; [assumption|pose proof dim12; unfold INT_MAX; lia|].
        apply (fits_le _ (fact dim * sx_nVertices dim n)); [apply binom_up; lia|exact Hf]. }
    rewrite E. cbn [obind].
    assert (M : forall l s, s <= fold_left (fun index i => index + binom (dim - i + v i - 1) (dim - i)) l s).
    { clear. induction l as [|b l IH]; intros s; [apply Nat.le_refl|]. cbn [fold_left]. specialize (IH (s + binom (dim - b + v b - 1) (dim - b))). lia. }
    rewrite ck_ok by (apply (fits_le _ (sx_nVertices dim n)); [pose proof (M l (s + binom (dim - a + v a - 1) (dim - a))); lia|apply nv_fits]).
    cbn [obind]. apply IH; [intros; apply Hl; right; assumption|assumption]. }
  apply X; [|exact T]. intros i Hi. apply in_seq in Hi. lia.
Qed.

(** vertices *)
Lemma vseq_grid : forall k, k < sx_nVertices dim n -> gridPoint dim n (vseq dim k).
Proof. intros k H. split; [intros _; apply (vseq_bound dim n k Hd); assumption|]. intros j Hj. apply (vseq_decr dim k Hd). assumption. Qed.
Lemma vseq_le : forall k j, k < sx_nVertices dim n -> vseq dim k j <= n.
Proof.
  intros k j H. destruct (Nat.lt_ge_cases j dim) as [L|L].
  - pose proof (decr_le dim _ 0 j (vseq_decr dim k Hd) ltac:(lia) L). pose proof (proj1 (vseq_bound dim n k Hd) H). lia.
  - rewrite vseq_outside by assumption. lia.
Qed.
Lemma n1_fits : fits (n + 1).
Proof. apply (fits_le _ (dim + n)); [lia|apply dimn_fits]. Qed.
Lemma sv_makeI_ok : forall e, sv_makeI n e = Some (sv_make n e).
Proof. intros []; unfold sv_makeI; [rewrite ck_ok by apply n1_fits|]; reflexivity. Qed.
Lemma svI_step : forall k, k < sx_nVertices dim n -> sv_incrementI dim (svAt dim n k) = Some (svAt dim n (S k)).
Proof.
  intros k H. unfold sv_incrementI, svAt. cbn [sv_vertex sv_size]. pose proof (vseq_le k 0 H).
  destruct (Nat.leb_spec (vseq dim k 0) n); [|lia].
  rewrite incLoopI_ok; [rewrite vseq_S; reflexivity|]. intros j _. apply (fits_le _ (n + 1)); [pose proof (vseq_le k j H); lia|apply n1_fits].
Qed.
Lemma svI_index : forall k, k < sx_nVertices dim n -> sv_indexI bin dim (svAt dim n k) = Some k.
Proof.
  intros k H. unfold sv_indexI, svAt. cbn [sv_vertex]. rewrite pointIndexI_ok by (apply vseq_grid; assumption). rewrite vseq_index by assumption. reflexivity.
Qed.

(** elements *)
Lemma roundI_cand : forall r, r / fact dim < sx_nVertices dim n -> S r / fact dim < sx_nVertices dim n ->
  se_roundI dim (candO dim r) (candK dim r) = Some (candO dim (S r), candK dim (S r), candIn dim (S r)).
Proof.
  intros r H1 H2. unfold se_roundI. rewrite factorialI_ck, ck_ok by apply fact_dim_fits. cbn [obind].
  pose proof (candK_lt dim r) as KL.
  rewrite ck_ok by (apply (fits_le _ (fact dim)); [lia|apply fact_dim_fits]). cbn [obind]. rewrite Nat.add_1_r.
  pose proof (cand_next dim r) as C.
  assert (E : (if Nat.eqb (S (candK dim r)) (fact dim) then obind (incLoopI dim (candO dim r)) (fun origin => Some (origin, 0)) else Some (candO dim r, S (candK dim r)))
    = Some (candO dim (S r), candK dim (S r))).
  { rewrite <- C. destruct (Nat.eqb (S (candK dim r)) (fact dim)); [|reflexivity].
    rewrite incLoopI_ok; [reflexivity|]. intros j _. apply (fits_le _ (n + 1)); [|apply n1_fits]. unfold candO. pose proof (vseq_le _ j H1). lia. }
  rewrite E. cbn [obind]. rewrite getPermutationI_ck, ck_ok by apply fact_dim_fits. cbn [obind].
  destruct (permOf_spec dim (candK dim (S r)) (candK_lt dim (S r))) as [G _]. rewrite G. cbn [obind].
  rewrite (outsideLoopI_ok _ n); [reflexivity| |rewrite Nat.add_comm; apply dimn_fits].
  intros j. apply vseq_le. assumption.
Qed.
Lemma searchI_cand : forall m r fuel, m < fuel -> (r + 1 + m) / fact dim < sx_nVertices dim n ->
  (forall j, j < m -> candIn dim (r + 1 + j) = false) -> candIn dim (r + 1 + m) = true ->
  se_searchI fuel dim (candO dim r) (candK dim r) = Ret (candO dim (r + 1 + m), candK dim (r + 1 + m)).
Proof.
  pose proof (fact_pos dim) as FP.
  induction m as [|m IH]; intros r fuel F B N Y; (destruct fuel as [|fuel]; [lia|]); cbn [se_searchI].
  - rewrite Nat.add_0_r in *. rewrite Nat.add_1_r in *.
    rewrite roundI_cand; [rewrite Y; reflexivity| |assumption].
    apply Nat.le_lt_trans with (S r / fact dim); [apply Nat.div_le_mono; lia|assumption].
  - rewrite roundI_cand.
    + pose proof (N 0 ltac:(lia)) as N0. rewrite Nat.add_0_r, Nat.add_1_r in N0. rewrite N0.
      rewrite (IH (S r) fuel).
      * do 2 f_equal; f_equal; lia.
      * lia.
      * replace (S r + 1 + m) with (r + 1 + S m) by lia. assumption.
      * intros j Hj. replace (S r + 1 + j) with (r + 1 + S j) by lia. apply N. lia.
      * replace (S r + 1 + m) with (r + 1 + S m) by lia. exact Y.
    + apply Nat.le_lt_trans with ((r + 1 + S m) / fact dim); [apply Nat.div_le_mono; lia|assumption].
    + apply Nat.le_lt_trans with ((r + 1 + S m) / fact dim); [apply Nat.div_le_mono; lia|assumption].
Qed.
Lemma seI_step : forall k fuel, 0 < n -> k < n ^ dim -> fact dim <= fuel ->
  se_incrementI fuel dim (elemAt dim n k) = Ret (elemAt dim n (S k)).
Proof.
  intros k fuel Hn Hk F. pose proof (elemAt_step dim n k fuel Hd Hn Hk F) as S0.
  unfold se_incrementI. unfold se_increment in S0. cbn [se_origin se_kuhn se_size se_index elemAt] in *.
  pose proof (proj1 (rs_lt dim n k Hd Hn) Hk) as L.
  pose proof (proj1 (cand_bound dim n _ Hd Hn) L) as B.
  destruct (Nat.ltb_spec (candO dim (rs dim k) 0) n); [|lia].
  rewrite ck_ok by (apply (fits_le _ (n ^ dim)); [lia|apply ne_fits]).
  destruct (next_cand dim (rs dim k) Hd) as (m & M1 & M2 & M3 & M4 & _).
  rewrite (se_search_cand m) in S0 by (auto; lia).
  rewrite (searchI_cand m); auto; [|lia|].
  - injection S0 as S1 S2. unfold elemAt. rewrite S1, S2, Nat.add_1_r. reflexivity.
  - unfold lastR in L. assert (rs dim k / fact dim < binom (dim + (n - 1)) dim) by (apply Nat.div_lt_upper_bound; [pose proof (fact_pos dim); lia|lia]).
    assert (binom (dim + (n - 1)) dim < sx_nVertices dim n).
    { unfold sx_nVertices. destruct n as [|n']; [lia|]. destruct dim as [|d']; [lia|]. replace (S d' + S n') with (S (S d' + n')) by lia.
      rewrite binom_S. replace (S n' - 1) with n' by lia.
      assert (0 < binom (S d' + n') d') by (pose proof (binom_mono d' d' (S d' + n') ltac:(lia)); rewrite binom_diag in *; lia). lia. }
    lia.
Qed.
Lemma se_makeI_ok : forall e, 0 < n -> se_makeI pow dim n e = Some (se_make dim n e).
Proof. intros [] Hn; unfold se_makeI; [rewrite nElementsI_ok by assumption|]; reflexivity. Qed.

(** vertex indices *)
Lemma viLoopI_ok : forall p q o, isPerm dim p -> isPerm dim q -> (forall i, i < dim -> q (p i) = i) -> (forall i, i < dim -> p (q i) = i) ->
  (forall i, gridPoint dim n (cornerAt q o i)) ->
  forall m i c ind, i + m = dim -> agree dim c (cornerAt q o i) ->
  viLoopI bin dim p m i c ind = Some (viLoop dim p m i c ind).
Proof.
  intros p q o Hp Hq qp pq G. induction m as [|m IH]; intros i c ind E A; [reflexivity|]. cbn [viLoopI viLoop].
  assert (A' : agree dim (aset c (p i) (c (p i) + 1)) (cornerAt q o (S i))) by (apply corner_next; auto; lia).
  assert (Pi : p i < dim) by (apply Hp; lia).
  assert (grid_ext : forall v w, agree dim v w -> gridPoint dim n w -> gridPoint dim n v).
  { intros v w AV [W1 W2]. split; [intros; rewrite AV by assumption; auto|]. intros j Hj. rewrite !AV by lia. auto. }
  assert (GA := grid_ext _ _ A' (G (S i))).
  assert (L : aset c (p i) (c (p i) + 1) (p i) <= n).
  { pose proof (decr_le dim _ 0 (p i) (gridPoint_decr _ _ _ GA) ltac:(lia) Pi). pose proof (proj1 GA Hd). lia. }
  rewrite aset_eq in L. rewrite ck_ok by (apply (fits_le _ (n + 1)); [lia|apply n1_fits]). cbn [obind].
  rewrite pointIndexI_ok by assumption. cbn [obind]. apply IH; [lia|assumption].
Qed.
Lemma viI_ok : forall k, 0 < n -> k < n ^ dim -> se_vertexIndicesI bin dim (elemAt dim n k) = se_vertexIndices dim (elemAt dim n k).
Proof.
  intros k Hn Hk. destruct (elem_spec dim n k Hd Hn Hk) as (p & q & E & P & Q & qp & pq & D & B & C & _).
  unfold se_vertexIndicesI, se_vertexIndices. rewrite getPermutationI_ck, ck_ok by apply fact_dim_fits. cbn [obind]. rewrite E. cbn [obind].
  set (o := se_origin (elemAt dim n k)) in *.
  assert (G : forall i, gridPoint dim n (cornerAt q o i)) by (intros i; apply corner_grid; auto; lia).
  assert (A0 : agree dim o (cornerAt q o 0)) by (intros j Hj; unfold cornerAt; destruct (Nat.ltb_spec (q j) 0); lia).
  rewrite pointIndexI_ok.
  - cbn [obind]. rewrite (viLoopI_ok p q o) by auto. reflexivity.
  - split; [intros; lia|]. intros j Hj. apply D. assumption.
Qed.

(** triangulations *)
Section Triangulations.
Variable t : Triang.
Hypothesis Hn : 0 < n.
Hypothesis Ht : 0 < tr_count t.
Hypothesis Hv : fits (tr_nVertices dim t n).
Hypothesis He : fits (tr_nElements dim t n).

Lemma count_fits : fits (tr_count t).
Proof. apply (fits_le _ (tr_nVertices dim t n)); [|assumption]. unfold tr_nVertices. pose proof nv_pos. nia. Qed.
Lemma trnV_ok : tr_nVerticesI bin dim t n = Some (tr_nVertices dim t n).
Proof. unfold tr_nVerticesI. rewrite nVerticesI_ok. cbn [obind]. rewrite ck_ok by apply count_fits. cbn [obind]. apply ck_ok. exact Hv. Qed.
Lemma trnE_ok : tr_nElementsI pow dim t n = Some (tr_nElements dim t n).
Proof. unfold tr_nElementsI. rewrite nElementsI_ok by assumption. cbn [obind]. rewrite ck_ok by apply count_fits. cbn [obind]. apply ck_ok. exact He. Qed.
Lemma tv_makeI_ok : forall e, tv_makeI t n e = Some (tv_make t n e).
Proof. intros e. unfold tv_makeI. rewrite ck_ok by apply count_fits. cbn [obind]. rewrite !sv_makeI_ok. reflexivity. Qed.
Lemma te_makeI_ok : forall e, te_makeI pow dim t n e = Some (te_make dim t n e).
Proof. intros e. unfold te_makeI. rewrite ck_ok by apply count_fits. cbn [obind]. rewrite !se_makeI_ok by assumption. reflexivity. Qed.
Lemma tv_kuhn_lt : forall j, j < tr_nVertices dim t n -> j / sx_nVertices dim n < tr_count t.
Proof. intros j H. apply Nat.div_lt_upper_bound; [pose proof nv_pos; lia|]. exact H. Qed.
Lemma te_kuhn_lt : forall j, j < tr_nElements dim t n -> j / n ^ dim < tr_count t.
Proof. intros j H. apply Nat.div_lt_upper_bound; [pose proof (pow_pos n dim Hn); lia|]. exact H. Qed.
Lemma tvI_step : forall j, j < tr_nVertices dim t n -> tv_incrementI dim (tvAt dim n j) = Some (tvAt dim n (S j)).
Proof.
  intros j Hj. pose proof (tvAt_step dim n Hd Hn j) as T. unfold tv_increment in T. unfold tv_incrementI.
  cbn [tv_backend tv_backendEnd tv_kuhn tv_n tvAt] in *. pose proof nv_pos as P.
  pose proof (Nat.mod_upper_bound j (sx_nVertices dim n) ltac:(lia)) as B.
  rewrite svAt_step in T by assumption. rewrite svI_step by assumption. cbn [obind] in *. rewrite <- T.
  destruct (sv_equals dim _ _); [|reflexivity].
  rewrite ck_ok by (apply (fits_le _ (tr_count t)); [pose proof (tv_kuhn_lt j Hj); lia|apply count_fits]). cbn [obind].
  rewrite sv_makeI_ok. cbn [obind]. rewrite Nat.add_1_r. reflexivity.
Qed.
Lemma teI_step : forall fuel j, fact dim <= fuel -> j < tr_nElements dim t n -> te_incrementI pow fuel dim (teAt dim n j) = Ret (teAt dim n (S j)).
Proof.
  intros fuel j F Hj. pose proof (teAt_step dim n Hd Hn fuel j F) as T. unfold te_increment in T. unfold te_incrementI.
  cbn [te_backend te_backendEnd te_kuhn te_n teAt] in *. pose proof (pow_pos n dim Hn) as P.
  pose proof (Nat.mod_upper_bound j (n ^ dim) ltac:(lia)) as B.
  rewrite elemAt_step in T by assumption. rewrite seI_step by assumption. rewrite <- T.
  destruct (se_equals _ _); [|reflexivity].
  rewrite ck_ok by (apply (fits_le _ (tr_count t)); [pose proof (te_kuhn_lt j Hj); lia|apply count_fits]). cbn [obind].
  rewrite se_makeI_ok by assumption. cbn [obind]. rewrite Nat.add_1_r. reflexivity.
Qed.
Lemma tvI_index : forall j, j < tr_nVertices dim t n -> tv_indexI bin dim (tvAt dim n j) = Some j.
Proof.
  intros j Hj. unfold tv_indexI. cbn [tv_n tv_kuhn tv_backend tvAt]. rewrite nVerticesI_ok. cbn [obind]. pose proof nv_pos as P.
  pose proof (Nat.div_mod j (sx_nVertices dim n) ltac:(lia)) as D. pose proof (Nat.mod_upper_bound j (sx_nVertices dim n) ltac:(lia)) as B.
  rewrite ck_ok by (apply (fits_le _ (tr_nVertices dim t n)); [lia|assumption]). cbn [obind].
  rewrite svI_index by assumption. cbn [obind]. rewrite Nat.mul_comm, <- D. apply ck_ok. lia.
Qed.
Lemma teI_index : forall j, j < tr_nElements dim t n -> te_indexI pow dim (teAt dim n j) = Some j.
Proof.
  intros j Hj. unfold te_indexI. cbn [te_n te_kuhn te_backend teAt se_index elemAt]. rewrite nElementsI_ok by assumption. cbn [obind]. pose proof (pow_pos n dim Hn) as P.
  unfold sx_nElements. pose proof (Nat.div_mod j (n ^ dim) ltac:(lia)) as D.
  rewrite ck_ok by (apply (fits_le _ (tr_nElements dim t n)); [lia|assumption]). cbn [obind].
  rewrite Nat.mul_comm, <- D. apply ck_ok. lia.
Qed.
Lemma teI_vi : forall j, j < tr_nElements dim t n -> exists vi viI, te_vertexIndices dim (teAt dim n j) = Some vi
  /\ te_vertexIndicesI bin dim (teAt dim n j) = Some viI /\ forall i, i <= dim -> viI i = Some (vi i).
Proof.
  intros j Hj. pose proof (pow_pos n dim Hn) as P. pose proof (Nat.mod_upper_bound j (n ^ dim) ltac:(lia)) as B.
  unfold te_vertexIndices, te_vertexIndicesI. cbn [te_n te_kuhn te_backend teAt]. rewrite viI_ok by assumption.
  destruct (elem_spec dim n _ Hd Hn B) as (p & q & E & Pp & Q & qp & pq & D & Bo & C & _).
  destruct (se_vertexIndices_eq dim _ p q E Pp Q qp pq) as (vi & EV & V). rewrite EV. cbn [obind]. rewrite nVerticesI_ok. cbn [obind].
  pose proof (te_kuhn_lt j Hj) as K.
  assert (KB : j / n ^ dim * sx_nVertices dim n + sx_nVertices dim n <= tr_nVertices dim t n) by (unfold tr_nVertices; nia).
  rewrite ck_ok by (apply (fits_le _ (tr_nVertices dim t n)); [lia|assumption]). cbn [obind].
  eexists. eexists. split; [reflexivity|]. split; [reflexivity|]. intros i Hi. cbv beta. apply ck_ok.
  apply (fits_le _ (tr_nVertices dim t n)); [|assumption]. rewrite V by assumption.
  assert (G : gridPoint dim n (cornerAt q (se_origin (elemAt dim n (j mod n ^ dim))) (flip (se_kuhn (elemAt dim n (j mod n ^ dim))) dim i))) by (apply corner_grid; auto; lia).
  assert (pointIndex dim (cornerAt q (se_origin (elemAt dim n (j mod n ^ dim))) (flip (se_kuhn (elemAt dim n (j mod n ^ dim))) dim i)) < sx_nVertices dim n).
  { apply index_bound; [assumption|apply (gridPoint_decr _ n); assumption|]. apply G. assumption. }
  lia.
Qed.
End Triangulations.
End Simplex.
