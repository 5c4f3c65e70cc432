(** Cholesky factorization, triangular solves and triangular inverse. *)
From Coq Require Import PeanoNat Lia Bool List Reals Lra FunctionalExtensionality.
From Verif Require Import M_Type M_RefTopo M_RefGeo M_Matrix S_Matrix P_RSum P_Matrix.
Local Open Scope R_scope.

Lemma Rltb_true a b : Rltb a b = true <-> a < b.
Proof. unfold Rltb. destruct (Rlt_dec a b); split; intro; auto; try discriminate; contradiction. Qed.
Lemma Rltb_false a b : Rltb a b = false <-> b <= a.
Proof. unfold Rltb. destruct (Rlt_dec a b); split; intro; auto; try discriminate; lra. Qed.

Lemma column_spec n A ret i a b : (i < n)%nat ->
  cholesky_column n A ret i a b =
  if andb (Nat.eqb b i) (andb (Nat.ltb i a) (Nat.ltb a n))
  then 1 / ret i i * (A a i - rsum i (fun j => ret i j * ret a j)) else ret a b.
Proof.
  intro Hi. unfold cholesky_column, forR. cbv zeta.
  assert (H : forall p, (p <= n - S i)%nat -> forall a b,
    forN p (fun k ret0 => mupd ret0 (S i + k)%nat i (1 / ret i i * forN i (fun j x => x - ret0 i j * ret0 (S i + k)%nat j) (A (S i + k)%nat i))) ret a b =
    if andb (Nat.eqb b i) (andb (Nat.ltb i a) (Nat.ltb a (S i + p)))
    then 1 / ret i i * (A a i - rsum i (fun j => ret i j * ret a j)) else ret a b).
  { induction p; intros Hp a' b'; cbn [forN].
    - destruct (Nat.ltb_spec i a'), (Nat.ltb_spec a' (S i + 0)); simpl; try lia; now rewrite ?andb_false_r.
    - rewrite mupd_case. rewrite (forN_sub i (fun j => _ * _)).
      rewrite (rsum_ext i _ (fun j => ret i j * ret (S i + p)%nat j)).
      2:{ intros j Hj. rewrite !IHp by lia. now rewrite (proj2 (Nat.eqb_neq j i)) by lia. }
      rewrite IHp by lia.
      destruct (Nat.eqb_spec b' i); [|rewrite andb_false_r; reflexivity]. subst. cbn [andb].
      destruct (Nat.eqb_spec a' (S i + p)).
      + subst. cbn [andb]. rewrite (proj2 (Nat.ltb_lt i (S i + p))), (proj2 (Nat.ltb_lt (S i + p) (S i + S p))) by lia. reflexivity.
      + cbn [andb]. destruct (Nat.ltb_spec i a'), (Nat.ltb_spec a' (S i + p)), (Nat.ltb_spec a' (S i + S p)); try lia; reflexivity. }
  rewrite H by lia. replace (S i + (n - S i))%nat with n by lia. reflexivity.
Qed.

(** the state after [i] finished columns *)
Record CholInv (n : nat) (A ret0 : Mat) (i : nat) (ret : Mat) : Prop := {
  ci_pos : forall k, (k < i)%nat -> 0 < ret k k;
  ci_eq : forall c k, (c < i)%nat -> (c <= k < n)%nat -> rsum (S c) (fun j => ret c j * ret k j) = A k c;
  ci_frame : forall a b, (i <= b \/ a < b \/ n <= a)%nat -> ret a b = ret0 a b }.

Lemma pivot_spec A ret i : cholesky_pivot A ret i = A i i - rsum i (fun j => ret i j * ret i j).
Proof. unfold cholesky_pivot. now rewrite (forN_sub i (fun j => ret i j * ret i j)). Qed.

Lemma chol_step n A ret0 i ret : (i < n)%nat -> CholInv n A ret0 i ret -> 0 < cholesky_pivot A ret i ->
  CholInv n A ret0 (S i) (cholesky_column n A (mupd ret i i (sqrt (cholesky_pivot A ret i))) i).
Proof.
  intros Hi H Hp. set (p := cholesky_pivot A ret i) in *. set (M := mupd ret i i (sqrt p)).
  assert (Hs : 0 < sqrt p) by now apply sqrt_lt_R0.
  assert (HM : forall a b, (b < i)%nat -> M a b = ret a b) by (intros; apply mupd_other; lia).
  assert (HMi : M i i = sqrt p) by apply mupd_same.
  assert (HC : forall a b, (b < i)%nat -> cholesky_column n A M i a b = ret a b).
  { intros a b Hb. rewrite column_spec by lia. rewrite (proj2 (Nat.eqb_neq b i)) by lia. simpl. now apply HM. }
  assert (HCi : cholesky_column n A M i i i = sqrt p).
  { rewrite column_spec by lia. rewrite Nat.ltb_irrefl, andb_false_r. assumption. }
  split.
  - intros k Hk. destruct (Nat.eq_dec k i).
    + subst. now rewrite HCi.
    + rewrite HC by lia. apply (ci_pos _ _ _ _ _ H); lia.
  - intros c k Hc Hk. destruct (Nat.eq_dec c i).
    + subst c. rewrite rsum_S, HCi.
      rewrite (rsum_ext i _ (fun j => ret i j * ret k j)) by (intros j Hj; rewrite !HC by lia; reflexivity).
      destruct (Nat.eq_dec k i).
      * subst k. rewrite HCi, sqrt_sqrt by lra. unfold p. rewrite pivot_spec. lra.
      * rewrite column_spec by lia.
        rewrite Nat.eqb_refl, (proj2 (Nat.ltb_lt i k)), (proj2 (Nat.ltb_lt k n)) by lia. simpl.
        rewrite HMi, (rsum_ext i (fun j => M i j * M k j) (fun j => ret i j * ret k j)) by (intros j Hj; rewrite !HM by lia; reflexivity).
        field. lra.
    + rewrite (rsum_ext (S c) _ (fun j => ret c j * ret k j)) by (intros j Hj; rewrite !HC by lia; reflexivity).
      apply (ci_eq _ _ _ _ _ H); lia.
  - intros a b Hab. rewrite column_spec by lia.
    replace (Nat.eqb b i && (Nat.ltb i a && Nat.ltb a n))%bool with false.
    + unfold M. rewrite mupd_other by lia. apply (ci_frame _ _ _ _ _ H); lia.
    + symmetry. apply andb_false_iff.
      destruct (Nat.eqb_spec b i); [right|now left]. apply andb_false_iff.
      destruct (Nat.ltb_spec i a); [right|now left]. apply Nat.ltb_ge. lia.
Qed.

Lemma cholesky_outcome n A ret0 chk :
  match cholesky_L n A ret0 chk with
  | Some (true, ret) => CholInv n A ret0 n ret
  | Some (false, ret) => chk = true /\ exists k, (k < n)%nat /\ CholInv n A ret0 k ret /\ cholesky_pivot A ret k <= 0
  | None => chk = false /\ exists k ret, (k < n)%nat /\ CholInv n A ret0 k ret /\ cholesky_pivot A ret k <= 0
  end.
Proof.
  unfold cholesky_L.
  set (body := fun (i : nat) (f : Flow Mat) => _).
  pose (P := fun i (f : Flow Mat) => match f with
     | Run ret => CholInv n A ret0 i ret
     | Ret b ret => b = false /\ chk = true /\ exists k, (k < n)%nat /\ CholInv n A ret0 k ret /\ cholesky_pivot A ret k <= 0
     | Fail => chk = false /\ exists k ret, (k < n)%nat /\ CholInv n A ret0 k ret /\ cholesky_pivot A ret k <= 0 end).
  assert (H : P n (forN n body (Run ret0))).
  { apply forN_inv.
    - split; intros; [lia|lia|reflexivity].
    - intros k [ret|b ret|] Hk HP; simpl in HP |- *; auto.
      destruct (Rltb 0 (cholesky_pivot A ret k)) eqn:E; simpl.
      + rewrite andb_false_r. simpl. apply chol_step; auto. now apply Rltb_true.
      + rewrite andb_true_r. apply Rltb_false in E. destruct chk; simpl; eauto 8. }
  destruct (forN n body (Run ret0)) as [ret|b ret|]; simpl in H; auto.
  destruct H as (-> & H). exact H.
Qed.

(** triangular solves *)
Lemma forN_vsub n f i (x : Vec) : (forall j, (j < n)%nat -> f j <> i) ->
  forall (l : nat -> R),
  forN n (fun j x => upd x i (x i - l j * x (f j))) x = upd x i (x i - rsum n (fun j => l j * x (f j))).
Proof.
  intros H l. induction n; simpl.
  - extensionality a. unfold upd. destruct (Nat.eqb_spec a i); [subst; lra|reflexivity].
  - rewrite IHn by (intros; apply H; lia). rewrite upd_upd, upd_eq, upd_ne by (apply H; lia). f_equal. lra.
Qed.
Lemma invLx_spec n L x : (forall k, (k < n)%nat -> L k k <> 0) ->
  (forall a, (a < n)%nat -> rsum (S a) (fun j => L a j * invLx n L x j) = x a) /\
  (forall a, (n <= a)%nat -> invLx n L x a = x a).
Proof.
  intro HL. unfold invLx. set (body := fun (i : nat) (x : Vec) => _).
  pose (P := fun i (y : Vec) => (forall a, (a < i)%nat -> rsum (S a) (fun j => L a j * y j) = x a) /\ (forall a, (i <= a)%nat -> y a = x a)).
  change (P n (forN n body x)). apply forN_inv.
  - split; [lia|reflexivity].
  - intros i y Hi [H1 H2]. unfold body. rewrite (forN_vsub i (fun j => j) i y) by (intros; lia).
    rewrite upd_eq, upd_upd. set (v := (y i - rsum i (fun j => L i j * y j)) / L i i). split.
    + intros a Ha. destruct (Nat.eq_dec a i).
      * subst. rewrite rsum_S, upd_eq.
        rewrite (rsum_ext i _ (fun j => L i j * y j)) by (intros; rewrite upd_ne by lia; reflexivity).
        unfold v. rewrite <- (H2 i) by lia. field. now apply HL.
      * rewrite <- (H1 a) by lia. apply rsum_ext. intros. rewrite upd_ne by lia. reflexivity.
    + intros a Ha. rewrite upd_ne by lia. apply H2. lia.
Qed.
Lemma invLTx_spec n L x : (forall k, (k < n)%nat -> L k k <> 0) ->
  (forall a, (a < n)%nat -> rsum n (fun j => low L j a * invLTx n L x j) = x a) /\
  (forall a, (n <= a)%nat -> invLTx n L x a = x a).
Proof.
  intro HL. unfold invLTx. set (body := fun (t : nat) (x : Vec) => _).
  pose (P := fun t (y : Vec) => (forall a, (n - t <= a < n)%nat -> rsum n (fun j => low L j a * y j) = x a)
                        /\ (forall a, (a < n - t \/ n <= a)%nat -> y a = x a)).
  assert (H : P n (forN n body x)).
  2:{ destruct H as [H1 H2]. split; intros a Ha; [apply H1|apply H2]; lia. }
  apply forN_inv.
  - split; [intros; lia|reflexivity].
  - intros t y Ht [H1 H2]. unfold body, forR. cbv zeta. set (i := (n - t)%nat).
    rewrite (forN_vsub (n - i) (fun j => (i + j)%nat) (i - 1) y) by (intros; lia).
    rewrite upd_eq, upd_upd.
    rewrite (rsum_from i n (fun j => L j (i - 1)%nat * y j)) by lia.
    set (s := rsum n _). set (v := (y (i - 1)%nat - s) / L (i - 1)%nat (i - 1)%nat). split.
    + intros a Ha. destruct (Nat.eq_dec a (i - 1)).
      * subst a.
        rewrite (rsum_ext n _ (fun j => (if Nat.leb i j then L j (i - 1)%nat * y j else 0) +
                 (if Nat.eqb j (i - 1) then L j (i - 1)%nat * v else 0))).
        2:{ intros j Hj. unfold low. destruct (Nat.leb_spec (i - 1) j), (Nat.leb_spec i j), (Nat.eqb_spec j (i - 1)); try lia.
            - rewrite upd_ne by lia. lra.
            - subst. rewrite upd_eq. lra.
            - rewrite upd_ne by lia. lra. }
        rewrite rsum_plus, (rsum_delta n (i - 1) (fun j => L j (i - 1)%nat * v)) by lia. fold s.
        unfold v. rewrite <- (H2 (i - 1)%nat) by lia. field. apply HL. lia.
      * rewrite <- (H1 a) by lia. apply rsum_ext. intros j Hj.
        destruct (Nat.eq_dec j (i - 1)).
        -- subst. unfold low. rewrite (proj2 (Nat.leb_gt a (i - 1))) by lia. lra.
        -- now rewrite upd_ne.
    + intros a Ha. rewrite upd_ne by lia. apply H2. lia.
Qed.
Lemma rsum_low n L a (x : Vec) : (a < n)%nat -> rsum n (fun j => low L a j * x j) = rsum (S a) (fun j => L a j * x j).
Proof.
  intro Ha. rewrite (rsum_trunc (S a) n); [|lia|].
  - apply rsum_ext. intros j Hj. unfold low. now rewrite (proj2 (Nat.leb_le j a)) by lia.
  - intros j Hj. unfold low. rewrite (proj2 (Nat.leb_gt j a)) by lia. apply Rmult_0_l.
Qed.

(** inverse of a lower triangular matrix, in place *)
Lemma invL_spec n L : (forall k, (k < n)%nat -> L k k <> 0) ->
  let '(det, N) := invL n L in
  det = detL n L /\
  (forall a j, (a < n)%nat -> (j <= a)%nat ->
     rsum (S a) (fun k => if Nat.leb j k then L a k * N k j else 0) = if Nat.eqb a j then 1 else 0) /\
  (forall a b, (n <= a \/ a < b)%nat -> N a b = L a b).
Proof.
  intro HL. unfold invL. set (body := fun (i : nat) '(det, L) => _).
  pose (P := fun i (s : R * Mat) => let '(det, N) := s in
    det = detL i L /\
    (forall a j, (a < i)%nat -> (j <= a)%nat ->
       rsum (S a) (fun k => if Nat.leb j k then L a k * N k j else 0) = if Nat.eqb a j then 1 else 0) /\
    (forall a b, (i <= a \/ a < b)%nat -> N a b = L a b)).
  change (P n (forN n body (1, L))). apply forN_inv.
  - simpl. split; [reflexivity|]. split; [intros; lia|reflexivity].
  - intros i [det N] Hi (Hd & H1 & H2). unfold body.
    set (N0 := mupd N i i (1 / N i i)).
    assert (E : forall p, (p <= i)%nat ->
      let N' := forN p (fun j L => mupd L i j ((- L i i) * forR (S j) i (fun k x => x + L i k * L k j) (L i j * L j j))) N0 in
      (forall a b, a <> i \/ p <= b -> N' a b = N0 a b)%nat /\
      (forall j, (j < p)%nat -> rsum (S i) (fun k => if Nat.leb j k then L i k * N' k j else 0) = 0)).
    { induction p; intro Hp; cbn [forN]; cbv zeta.
      - split; [reflexivity|intros; lia].
      - destruct IHp as [F1 F2]; [lia|]. set (N' := forN p _ N0) in *.
        set (v := - N' i i * _).
        assert (FF : forall a b, a <> i \/ (S p <= b)%nat -> mupd N' i p v a b = N0 a b)
          by (intros; rewrite mupd_other by lia; apply F1; lia).
        split; [exact FF|].
        intros j Hj. destruct (Nat.eq_dec j p).
        + subst j. rewrite rsum_S, (proj2 (Nat.leb_le p i)), mupd_same by lia.
          unfold v, forR. rewrite (forN_add (i - S p) (fun k => N' i (S p + k)%nat * N' (S p + k)%nat p)).
          rewrite (rsum_from (S p) i (fun k => N' i k * N' k p)) by lia.
          assert (Eii : N' i i = 1 / L i i).
          { rewrite F1 by lia. unfold N0. rewrite mupd_same, H2 by lia. reflexivity. }
          assert (Ei : forall k, (p <= k < i)%nat -> N' i k = L i k).
          { intros k Hk. rewrite F1 by lia. unfold N0. rewrite mupd_other by lia. apply H2. lia. }
          rewrite (Ei p) by lia. rewrite Eii.
          rewrite (rsum_ext i (fun k => if Nat.leb p k then L i k * mupd N' i p (- (1 / L i i) * _) k p else 0)
            (fun k => (if Nat.leb (S p) k then N' i k * N' k p else 0) + (if Nat.eqb k p then L i k * N' p p else 0))).
          2:{ intros k Hk. destruct (Nat.leb_spec p k), (Nat.leb_spec (S p) k), (Nat.eqb_spec k p); try lia; subst;
              rewrite ?mupd_other by lia; rewrite ?(Ei k) by lia; lra. }
          rewrite rsum_plus, (rsum_delta i p (fun k => L i k * N' p p)) by lia.
          field. now apply HL.
        + etransitivity; [|apply (F2 j); lia]. apply rsum_ext. intros k Hk. now rewrite mupd_other by lia. }
    destruct (E i (le_n i)) as [E1 E2]. set (N' := forN i _ N0) in *.
    assert (HN : forall a b, (a <> i \/ i < b)%nat -> N' a b = N a b).
    { intros a b Hab. rewrite E1 by lia. unfold N0. now rewrite mupd_other by lia. }
    repeat split.
    + simpl. rewrite Hd, H2 by lia. reflexivity.
    + intros a j Ha Hj. destruct (Nat.eq_dec a i).
      * subst a. destruct (Nat.eqb_spec i j).
        -- subst j. rewrite rsum_S, Nat.leb_refl.
           rewrite rsum_0, E1 by (try lia; intros k Hk; now rewrite (proj2 (Nat.leb_gt i k)) by lia).
           unfold N0. rewrite mupd_same, H2 by lia. field. now apply HL.
        -- apply E2. lia.
      * rewrite <- (H1 a j) by lia. apply rsum_ext. intros k Hk. now rewrite HN by lia.
    + intros a b Hab. rewrite HN by lia. apply H2. lia.
Qed.
Lemma invL_low n L : (forall k, (k < n)%nat -> L k k <> 0) ->
  forall a j, (a < n)%nat -> (j < n)%nat ->
  rsum n (fun k => low L a k * low (snd (invL n L)) k j) = if Nat.eqb a j then 1 else 0.
Proof.
  intros HL a j Ha Hj. generalize (invL_spec n L HL). destruct (invL n L) as [det N]. intros (_ & H & _). simpl.
  rewrite (rsum_low n L a (fun k => low N k j)) by assumption. destruct (Nat.leb_spec j a).
  - rewrite <- H by lia. apply rsum_ext. intros k Hk. unfold low. destruct (Nat.leb j k); lra.
  - rewrite (proj2 (Nat.eqb_neq a j)) by lia. apply rsum_0. intros k Hk. unfold low. rewrite (proj2 (Nat.leb_gt j k)) by lia. lra.
Qed.
