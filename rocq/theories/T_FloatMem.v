(** C104: no uninitialised or foreign storage is read in IEEE arithmetic *)
From Coq Require Import PeanoNat NArith ZArith Bool List Lia.
From Flocq Require Import IEEE754.BinarySingleNaN.
From Verif Require Import M_Type M_RefTopo M_Matrix M_Affine M_Float M_FloatGlobal M_FloatLocal M_FloatVolume M_FloatLFE P_Matrix P_FloatMat1 P_FloatMat3 T_Float T_FloatLocal T_FloatLFE T_FloatAgree3.
Import ListNotations.

(** both undefined, or both defined and related *)
Definition both {A} (R : A -> A -> Prop) (a b : option A) : Prop :=
  match a, b with Some a, Some b => R a b | None, None => True | _, _ => False end.
Lemma both_bind {A B} (R : A -> A -> Prop) (Q : B -> B -> Prop) a b f g : both R a b -> (forall x y, R x y -> both Q (f x) (g y)) -> both Q (obind a f) (obind b g).
Proof. destruct a, b; cbn; intros H K; try contradiction; auto. Qed.

Lemma both_length {A} (R : A -> A -> Prop) l l' : Forall2 R l l' -> length l = length l'.
Proof. induction 1; cbn; congruence. Qed.

Section T.
Variables (prec emax : Z).
Context (Hp : FLX.Prec_gt_0 prec) (He : Prec_lt_emax prec emax).
Notation float := (binary_float prec emax).
Notation FVec := (nat -> float).
Notation FMat := (nat -> nat -> float).
Notation add := (fadd prec emax Hp He).
Notation sub := (fsub prec emax Hp He).
Notation mul := (fmul prec emax Hp He).
Notation div := (fdiv prec emax Hp He).
Notation one := (ofZ prec emax Hp He 1).
Notation mupd := (fmupd prec emax).
Notation row := (fmrow prec emax).

(** equal in the range of the type FieldVector<n> or FieldMatrix<m,n> *)
Definition veq (n : nat) (a b : FVec) : Prop := forall k, k < n -> a k = b k.
Definition meq (m n : nat) (A B : FMat) : Prop := forall i k, i < m -> k < n -> A i k = B i k.
Definition leq (n m : nat) (A B : FMat) : Prop := forall k j, j < m -> j <= k < n -> A k j = B k j.

(** ** the matrix helper *)
Lemma aat_eq m n A B j j' : m <= n -> meq m n A B -> leq m m (fAAT_L prec emax Hp He m n A j) (fAAT_L prec emax Hp He m n B j').
Proof.
  intros Hmn H k l Hl Hk. rewrite !fAAT_entry by lia. rewrite (H k 0), (H l 0) by lia. apply forN_ext. intros t s Ht. now rewrite (H k), (H l) by lia.
Qed.
Lemma chol_eq n A B ret ret' cs : leq n n A B -> both (fun p q => fst p = fst q /\ (fst p = true -> leq n n (snd p) (snd q))) (fcholesky_L prec emax Hp He n A ret cs) (fcholesky_L prec emax Hp He n B ret' cs).
Proof.
  intros H. unfold fcholesky_L. set (bA := fun i f => fbind f _). set (bB := fun i f => fbind f _).
  assert (K : forall m, m <= n -> match forN m bA (Run ret), forN m bB (Run ret') with Run R, Run R' => leq n m R R' | Ret b _, Ret b' _ => b = false /\ b' = false | Fail, Fail => True | _, _ => False end).
  { induction m as [|m IH]; intro Hm; [intros ? ? ?; lia|]. specialize (IH ltac:(lia)). cbn [forN].
    destruct (forN m bA (Run ret)) as [Q|b Q|]; destruct (forN m bB (Run ret')) as [Q'|b' Q'|]; try contradiction; [|exact IH|exact I].
    unfold bA, bB. cbn [fbind]. unfold fcholesky_pivot.
    assert (P : forN m (fun j s => sub s (mul (Q m j) (Q m j))) (A m m) = forN m (fun j s => sub s (mul (Q' m j) (Q' m j))) (B m m)).
    { rewrite (H m m) by lia. apply forN_ext. intros j s Hj. now rewrite (IH m j) by lia. }
    rewrite P. set (pv := forN m _ (B m m)). clearbody pv. destruct (fgt prec emax pv _); cbn [negb andb]; [|destruct cs; cbn [andb]; auto].
    rewrite andb_false_r. unfold fcholesky_column, forR. cbv zeta. set (Z := mupd Q m m _). set (Z' := mupd Q' m m _).
    assert (E : forall k j, j < m -> m <= k < n -> Z k j = Z' k j) by (intros; unfold Z, Z'; rewrite !mupd_other by lia; apply IH; lia).
    assert (D : Z m m = Z' m m) by (unfold Z, Z'; now rewrite !mupd_same).
    intros k j Hj Hk. rewrite !(column_entry prec emax Hp He n) by lia. destruct (Nat.eqb_spec j m) as [->|N]; cbn [andb].
    - destruct (Nat.leb_spec (S m) k); cbn [andb]; [|replace k with m by lia; exact D]. rewrite (proj2 (Nat.ltb_lt k (S m + (n - S m)))) by lia. rewrite D, (H k m) by lia. f_equal.
      apply forN_ext. intros i s Hi. now rewrite (E m i), (E k i) by lia.
    - unfold Z, Z'. rewrite !mupd_other by lia. apply IH; lia. }
  specialize (K n (le_n n)). destruct (forN n bA (Run ret)), (forN n bB (Run ret')); try contradiction; cbn; auto. destruct K as (-> & ->). split; [reflexivity|discriminate].
Qed.
Lemma invLx_eq n L M b c : leq n n L M -> veq n b c -> veq n (finvLx prec emax Hp He n L b) (finvLx prec emax Hp He n M c).
Proof.
  intros H Hb. intro k. induction k as [k IH] using lt_wf_ind. intro Hk. rewrite !finvLx_row by exact Hk. rewrite (H k k), (Hb k) by lia. f_equal. apply forN_ext. intros j s Hj. now rewrite (H k j), (IH j) by lia.
Qed.
Lemma invLTx_eq n L M b c : leq n n L M -> veq n b c -> veq n (finvLTx prec emax Hp He n L b) (finvLTx prec emax Hp He n M c).
Proof.
  intros H Hb. assert (K : forall d k, k < n -> n - k <= d -> finvLTx prec emax Hp He n L b k = finvLTx prec emax Hp He n M c k).
  2: { intros k Hk. apply (K n); lia. }
  induction d as [|d IH]; intros k Hk Hd; [lia|]. rewrite !finvLTx_row by exact Hk. rewrite (H k k), (Hb k) by lia. f_equal. apply forN_ext. intros j s Hj. now rewrite (H (S k + j) k), (IH (S k + j)) by lia.
Qed.
Lemma invL_eq n L M : leq n n L M -> fst (finvL prec emax Hp He n L) = fst (finvL prec emax Hp He n M) /\ leq n n (snd (finvL prec emax Hp He n L)) (snd (finvL prec emax Hp He n M)).
Proof.
  intro H. pose proof (finvL_entry prec emax Hp He n L) as E. pose proof (finvL_entry prec emax Hp He n M) as E'. destruct (finvL prec emax Hp He n L) as (d, N), (finvL prec emax Hp He n M) as (d', N'). destruct E as (-> & E), E' as (-> & E'). cbn [fst snd].
  split; [apply forN_ext; intros i s Hi; now rewrite (H i i) by lia|].
  intros i. induction i as [i IH] using lt_wf_ind. intros j Hj Hi. destruct (E i ltac:(lia)) as (D & R), (E' i ltac:(lia)) as (D' & R').
  assert (DD : N i i = N' i i) by (rewrite D, D'; now rewrite (H i i) by lia). destruct (Nat.eq_dec j i) as [->|Ne]; [exact DD|]. rewrite R, R' by lia. rewrite DD. f_equal. rewrite (H i j), (IH j) by lia.
  apply forN_ext. intros k s Hk. now rewrite (H i (S j + k)), (IH (S j + k)) by lia.
Qed.
Lemma LTL_eq n L M r r' : leq n n L M -> meq n n (fLTL prec emax Hp He n L r) (fLTL prec emax Hp He n M r').
Proof.
  intro H. assert (K : forall i j, j <= i < n -> fLTL prec emax Hp He n L r i j = fLTL prec emax Hp He n M r' i j).
  { intros i j Hj. rewrite (proj1 (fLTL_entry prec emax Hp He n L r i j Hj)), (proj1 (fLTL_entry prec emax Hp He n M r' i j Hj)). apply forN_ext. intros k s Hk. now rewrite !(H (i + k)) by lia. }
  intros i k Hi Hk. destruct (Nat.le_ge_cases k i) as [L1|L1]; [apply K; lia|].
  rewrite (proj2 (fLTL_entry prec emax Hp He n L r k i ltac:(lia))), (proj2 (fLTL_entry prec emax Hp He n M r' k i ltac:(lia))). apply K. lia.
Qed.
(** xTRightInvA *)
Theorem C104_solve : forall m n A B x y j1 j2 j1' j2', m <= n -> meq m n A B -> veq n x y ->
  both (fun p q => fst p = fst q /\ veq m (snd p) (snd q)) (fxTRightInvA prec emax Hp He m n A x j1 j2) (fxTRightInvA prec emax Hp He m n B y j1' j2').
Proof.
  intros m n A B x y j1 j2 j1' j2' Hmn H Hx. unfold fxTRightInvA, fspdInvAx.
  assert (HV : veq m (fmv prec emax Hp He n A x) (fmv prec emax Hp He n B y)) by (intros i Hi; unfold fmv; apply forN_ext; intros k s Hk; now rewrite (H i k), (Hx k) by assumption).
  eapply both_bind; [apply chol_eq, aat_eq; [exact Hmn|exact H]|]. intros [b L] [b' M] (E & HL). cbn [fst snd] in *. subst b'. destruct b; cbn [negb]; cbn; (split; [reflexivity|]); [|exact HV].
  apply invLTx_eq; [auto|]. apply invLx_eq; auto.
Qed.
Lemma chol_true n A j b L : fcholesky_L prec emax Hp He n A j false = Some (b, L) -> b = true.
Proof.
  intro E. pose proof (chol_same prec emax Hp He n A A j j ltac:(split; intros; [reflexivity|now left])) as C. rewrite E in C. apply C.
Qed.
(** rightInvA *)
Theorem C104_inverse : forall m n A B r r' j1 j2 j1' j2', m <= n -> meq m n A B ->
  both (fun p q => fst p = fst q /\ meq n m (snd p) (snd q)) (frightInvA prec emax Hp He m n A r j1 j2) (frightInvA prec emax Hp He m n B r' j1' j2').
Proof.
  intros m n A B r r' j1 j2 j1' j2' Hmn H. unfold frightInvA. destruct (Nat.eqb n 2 && Nat.eqb m 2)%bool eqn:E2.
  - apply andb_prop in E2. destruct E2 as (E1 & E2). apply Nat.eqb_eq in E1, E2. subst n m. cbn [both]. unfold finv22, fdet22. rewrite !(H 0), !(H 1) by lia. cbn [fst snd]. split; [reflexivity|]. intros [|[|i]] [|[|k]] Hi Hk; try lia; reflexivity.
  - eapply both_bind with (R := fun p q => fst p = fst q /\ meq m m (snd p) (snd q)).
    + unfold fspdInvA. pose proof (chol_eq m _ _ j2 j2' false (aat_eq m n A B j1 j1' Hmn H)) as C.
      destruct (fcholesky_L prec emax Hp He m (fAAT_L prec emax Hp He m n A j1) j2 false) as [(b, L)|] eqn:F, (fcholesky_L prec emax Hp He m (fAAT_L prec emax Hp He m n B j1') j2' false) as [(b', M)|]; cbn [both] in C; try contradiction; [|exact I].
      apply chol_true in F. destruct C as (_ & C). specialize (C F). cbn [snd] in C. cbn [obind]. pose proof (invL_eq m L M C) as K. destruct (finvL prec emax Hp He m L), (finvL prec emax Hp He m M). cbn [both fst snd] in *.
      split; [apply K|]. apply LTL_eq. apply K.
    + intros [d a] [d' a'] (E & Ha). cbn [fst snd] in *. cbn. split; [exact E|]. intros i k Hi Hk. rewrite !fATBT_entry by assumption. apply forN_ext. intros t s Ht. now rewrite (H t i), (Ha k t) by assumption.
Qed.
(** sqrtDetAAT *)
Theorem C104_determinant : forall m n A B j1 j2 j1' j2', meq m n A B -> fsqrtDetAAT prec emax Hp He m n A j1 j2 = fsqrtDetAAT prec emax Hp He m n B j1' j2'.
Proof. intros m n A B j1 j2 j1' j2' H. apply C103_det. intros i k Hi Hk. left. now apply H. Qed.

(** ** MultiLinearGeometry *)
Section ML.
Variables (cdim : nat) (tid : N) (mydim : nat).
Notation glob := (fml_glob prec emax Hp He cdim tid mydim).
Notation axpy := (faxpy prec emax Hp He cdim).
Notation ceq := (Forall2 (veq cdim)).
Lemma axpy_eq a x x' y y' : veq cdim x x' -> veq cdim y y' -> veq cdim (axpy a x y) (axpy a x' y').
Proof. intros Hx Hy k Hk. unfold faxpy. destruct (Nat.ltb k cdim); rewrite Hy by exact Hk; [|reflexivity]. now rewrite Hx. Qed.
Lemma veq_le n m x y : n <= m -> veq m x y -> veq n x y. Proof. intros L H k Hk. apply H. lia. Qed.
Lemma glob_eq : forall dim ad cit cit' df x x' rf y y', ceq cit cit' -> veq dim x x' -> (ad = true -> veq cdim y y') ->
  both (fun p q => ceq (fst p) (fst q) /\ veq cdim (snd p) (snd q)) (glob dim ad cit df x rf y) (glob dim ad cit' df x' rf y').
Proof.
  induction dim as [|d IH]; intros ad cit cit' df x x' rf y y' HC HX HY.
  - destruct HC as [|o o' l l' Ho Hl]; cbn; [exact I|]. split; [exact Hl|]. intros k Hk. unfold fset. rewrite (proj2 (Nat.ltb_lt k cdim) Hk), (Ho k Hk). destruct ad; [now rewrite HY|reflexivity].
  - cbn [fml_glob]. rewrite (HX d) by lia. assert (HX' : veq d x x') by (apply (veq_le d (S d)); [lia|exact HX]). destruct (isPrism tid mydim (mydim - S d)).
    + eapply both_bind; [apply IH; eassumption|]. intros [c z] [c' z'] (K1 & K2). cbn [fst snd] in *. apply IH; auto.
    + eapply both_bind with (R := fun p q => ceq (fst p) (fst q) /\ veq cdim (snd p) (snd q)); [destruct (faway _ _ _ _ _); apply IH; assumption|]. intros [c z] [c' z'] (K1 & K2). cbn [fst snd] in *.
      destruct K1 as [|t t' l l' Ht Hl]; cbn; [exact I|]. split; [exact Hl|]. now apply axpy_eq.
Qed.
Lemma row_eq m A B i r r' : meq m cdim A B -> veq cdim r r' -> meq m cdim (row A i r) (row B i r').
Proof. intros H Hr a k Ha Hk. unfold fmrow. destruct (Nat.eqb a i); [now apply Hr|now apply H]. Qed.
Lemma row_new d A B r r' : meq d cdim A B -> veq cdim r r' -> meq (S d) cdim (row A d r) (row B d r').
Proof. intros H Hr a k Ha Hk. unfold fmrow. destruct (Nat.eqb_spec a d); [now apply Hr|apply H; [lia|exact Hk]]. Qed.
Notation fjt := (fml_jt prec emax Hp He cdim tid mydim).
Lemma jt_keep jk : forall dim ad cit df x rf jt c r, fjt jk dim ad cit df x rf jt = Some (c, r) -> forall i, dim <= i -> r i = jt i.
Proof.
  induction dim as [|d IH]; intros ad cit df x rf jt c r E i Hi.
  - destruct cit; [discriminate E|]. cbn in E. now injection E as _ <-.
  - cbn [fml_jt] in E. cbv zeta in E. destruct (isPrism tid mydim (mydim - S d)).
    + destruct (fjt jk d ad _ _ _ _ _) as [(c1, r1)|] eqn:E1; [|discriminate E]. cbn [obind] in E. destruct (fjt jk d true _ _ _ _ _) as [(c2, r2)|] eqn:E2; [|discriminate E]. cbn [obind] in E.
      destruct (glob d ad _ _ _ _ _) as [(c3, r3)|]; [|discriminate E]. cbn [obind] in E. destruct (glob d true _ _ _ _ _) as [(c4, r4)|]; [|discriminate E]. cbn in E. injection E as _ <-.
      unfold fmrow. destruct (Nat.eqb_spec i d); [lia|]. rewrite (IH _ _ _ _ _ _ _ _ E2) by lia. apply (IH _ _ _ _ _ _ _ _ E1). lia.
    + set (q := if faway _ _ _ _ _ then _ else _) in E. clearbody q. destruct (glob d ad _ _ _ _ _) as [(c1, r1)|]; [|discriminate E]. cbn [obind] in E. destruct c1 as [|tip c1]; [discriminate E|]. destruct ad.
      * destruct (fjt jk d false _ _ _ _ _) as [(c2, r2)|] eqn:E2; [|discriminate E]. cbn [obind] in E. injection E as _ <-.
        assert (K : forall m, m <= d -> forN m (fun j jt => row (row jt j (fset prec emax cdim (fun i => add (jt j i) (r2 j i)) (jt j))) d (axpy (mul q (x j)) (r2 j) (row jt j (fset prec emax cdim (fun i => add (jt j i) (r2 j i)) (jt j)) d))) (row jt d (axpy rf tip r1)) i = jt i).
        { induction m as [|m IHm]; intro Hm; cbn [forN]; unfold fmrow at 1; (destruct (Nat.eqb_spec i d); [lia|]); [reflexivity|]. unfold fmrow at 1. destruct (Nat.eqb_spec i m); [lia|]. apply IHm. lia. }
        apply K. lia.
      * destruct (fjt jk d false _ _ _ _ _) as [(c2, r2)|] eqn:E2; [|discriminate E]. cbn [obind] in E. injection E as _ <-.
        assert (K : forall m, m <= d -> forN m (fun j jt => row jt d (axpy (mul q (x j)) (jt j) (jt d))) r2 i = jt i).
        { induction m as [|m IHm]; intro Hm; cbn [forN]; [rewrite (IH _ _ _ _ _ _ _ _ E2) by lia; unfold fmrow; destruct (Nat.eqb_spec i d); [lia|reflexivity]|]. unfold fmrow at 1. destruct (Nat.eqb_spec i d); [lia|]. apply IHm. lia. }
        apply K. lia.
Qed.
Lemma jt_eq jk jk' : forall dim ad cit cit' df x x' rf jt jt', ceq cit cit' -> veq dim x x' -> (ad = true -> meq dim cdim jt jt') ->
  both (fun p q => ceq (fst p) (fst q) /\ meq dim cdim (snd p) (snd q)) (fjt jk dim ad cit df x rf jt) (fjt jk' dim ad cit' df x' rf jt').
Proof.
  induction dim as [|d IH]; intros ad cit cit' df x x' rf jt jt' HC HX HJ.
  - destruct HC as [|o o' l l' Ho Hl]; cbn; [exact I|]. split; [exact Hl|]. intros i k Hi. lia.
  - cbn [fml_jt]. cbv zeta. rewrite (HX d) by lia. assert (HX' : veq d x x') by (apply (veq_le d (S d)); [lia|exact HX]).
    assert (HJ' : ad = true -> meq d cdim jt jt') by (intros -> i k Hi Hk; apply HJ; auto). assert (HR : ad = true -> veq cdim (jt d) (jt' d)) by (intros -> k Hk; apply HJ; auto).
    destruct (isPrism tid mydim (mydim - S d)).
    + set (xn := mul df (x' d)). assert (I1 := IH ad cit cit' df x x' (mul rf (sub one xn)) jt jt' HC HX' HJ'). clearbody xn.
      destruct (fjt jk d ad cit _ _ _ _) as [(c1, r1)|] eqn:E1, (fjt jk' d ad cit' _ _ _ _) as [(c1', r1')|] eqn:E1'; cbn [both fst snd] in I1; try contradiction; cbn [obind]; [|exact I]. destruct I1 as (C1 & R1).
      assert (I2 := IH true c1 c1' df x x' (mul rf xn) r1 r1' C1 HX' (fun _ => R1)).
      destruct (fjt jk d true c1 _ _ _ _) as [(c2, r2)|] eqn:E2, (fjt jk' d true c1' _ _ _ _) as [(c2', r2')|] eqn:E2'; cbn [both fst snd] in I2; try contradiction; cbn [obind]; [|exact I]. destruct I2 as (C2 & R2).
      rewrite (jt_keep _ _ _ _ _ _ _ _ _ _ E2 d), (jt_keep _ _ _ _ _ _ _ _ _ _ E1 d), (jt_keep _ _ _ _ _ _ _ _ _ _ E2' d), (jt_keep _ _ _ _ _ _ _ _ _ _ E1' d) by lia.
      eapply both_bind; [apply glob_eq; [exact HC|exact HX'|exact HR]|]. intros [c3 r3] [c3' r3'] (C3 & R3). cbn [fst snd] in *.
      eapply both_bind; [apply glob_eq; [exact C3|exact HX'|intros _; exact R3]|]. intros [c4 r4] [c4' r4'] (C4 & R4). cbn [fst snd] in *. cbn. split; [exact C4|]. now apply row_new.
    + set (q := if faway _ _ _ _ _ then _ else _). clearbody q.
      eapply both_bind; [apply glob_eq; [exact HC|exact HX'|exact HR]|]. intros [c1 r1] [c1' r1'] (C1 & R1). cbn [fst snd] in *. destruct C1 as [|tip tip' c1 c1' Ht C1]; [exact I|].
      assert (RT : veq cdim (axpy rf tip r1) (axpy rf tip' r1')) by now apply axpy_eq. destruct ad.
      * eapply both_bind; [apply (IH false); [exact HC|exact HX'|discriminate]|]. intros [c2 r2] [c2' r2'] (C2 & R2). cbn [fst snd] in *. cbn [both fst snd]. split; [exact C1|].
        assert (S0 : meq (S d) cdim (row jt d (axpy rf tip r1)) (row jt' d (axpy rf tip' r1'))) by (apply row_new; auto).
        revert S0. generalize (row jt d (axpy rf tip r1)) (row jt' d (axpy rf tip' r1')). intros B B' S0.
        assert (K : forall m, m <= d -> meq (S d) cdim (forN m (fun j jt => row (row jt j (fset prec emax cdim (fun i => add (jt j i) (r2 j i)) (jt j))) d (axpy (mul q (x j)) (r2 j) (row jt j (fset prec emax cdim (fun i => add (jt j i) (r2 j i)) (jt j)) d))) B)
            (forN m (fun j jt => row (row jt j (fset prec emax cdim (fun i => add (jt j i) (r2' j i)) (jt j))) d (axpy (mul q (x' j)) (r2' j) (row jt j (fset prec emax cdim (fun i => add (jt j i) (r2' j i)) (jt j)) d))) B')).
        { induction m as [|m IHm]; intro Hm; cbn [forN]; [exact S0|]. specialize (IHm ltac:(lia)). set (G := forN m _ B) in *. set (G' := forN m _ B') in *. clearbody G G'.
          assert (RM : meq (S d) cdim (row G m (fset prec emax cdim (fun i => add (G m i) (r2 m i)) (G m))) (row G' m (fset prec emax cdim (fun i => add (G' m i) (r2' m i)) (G' m)))).
          { apply row_eq; [exact IHm|]. intros k Hk. unfold fset. rewrite (proj2 (Nat.ltb_lt k cdim) Hk). now rewrite (IHm m k), (R2 m k) by lia. }
          apply row_eq; [exact RM|]. rewrite (HX m) by lia. apply axpy_eq; [intros k Hk; apply R2; lia|intros k Hk; apply RM; lia]. }
        apply K. lia.
      * assert (I2 := IH false cit cit' q x x' rf (row jt d (axpy rf tip r1)) (row jt' d (axpy rf tip' r1')) HC HX' ltac:(discriminate)).
        destruct (fjt jk d false cit _ _ _ _) as [(c2, r2)|] eqn:E2, (fjt jk' d false cit' _ _ _ _) as [(c2', r2')|] eqn:E2'; cbn [both fst snd] in I2; try contradiction; cbn [obind]; [|exact I]. destruct I2 as (C2 & R2). cbn [both fst snd]. split; [exact C1|].
        assert (S0 : meq (S d) cdim r2 r2').
        { intros i k Hi Hk. destruct (Nat.eq_dec i d) as [->|N]; [|apply R2; lia]. rewrite (jt_keep _ _ _ _ _ _ _ _ _ _ E2 d), (jt_keep _ _ _ _ _ _ _ _ _ _ E2' d) by lia. unfold fmrow. rewrite Nat.eqb_refl. now apply RT. }
        assert (K : forall m, m <= d -> meq (S d) cdim (forN m (fun j jt => row jt d (axpy (mul q (x j)) (jt j) (jt d))) r2) (forN m (fun j jt => row jt d (axpy (mul q (x' j)) (jt j) (jt d))) r2')).
        { induction m as [|m IHm]; intro Hm; cbn [forN]; [exact S0|]. specialize (IHm ltac:(lia)). rewrite (HX m) by lia. apply row_eq; [exact IHm|]. apply axpy_eq; intros k Hk; apply IHm; lia. }
        apply K. lia.
Qed.
Lemma norm_eq n a b : veq n a b -> fnorm2 prec emax Hp He n a = fnorm2 prec emax Hp He n b.
Proof. intro H. unfold fnorm2. apply forN_ext. intros k s Hk. now rewrite H. Qed.
Notation faff := (fml_affine prec emax Hp He cdim tid mydim).
Lemma affine_eq jk jk' : forall dim cit cit' jt jt', ceq cit cit' ->
  both (fun p q => fst (fst p) = fst (fst q) /\ ceq (snd (fst p)) (snd (fst q)) /\ (fst (fst p) = true -> meq dim cdim (snd p) (snd q))) (faff jk dim cit jt) (faff jk' dim cit' jt').
Proof.
  induction dim as [|d IH]; intros cit cit' jt jt' HC.
  - destruct HC as [|o o' l l' Ho Hl]; cbn; [exact I|]. split; [reflexivity|]. split; [exact Hl|]. intros _ i k Hi. lia.
  - cbn [fml_affine]. destruct HC as [|o o' l l' Ho Hl]; [exact I|]. eapply both_bind; [apply IH; constructor; [exact Ho|exact Hl]|]. intros [[b c] A] [[b' c'] A'] (E & C & R). cbn [fst snd] in *. subst b'.
    destruct b; cbn [negb]; [|cbn; split; [reflexivity|split; [exact C|discriminate]]]. specialize (R eq_refl). destruct C as [|t t' c c' Ht C]; [exact I|].
    assert (LR : veq cdim (fset prec emax cdim (fun k => sub (t k) (o k)) (A d)) (fset prec emax cdim (fun k => sub (t' k) (o' k)) (A' d))) by (intros k Hk; unfold fset; rewrite (proj2 (Nat.ltb_lt k cdim) Hk); now rewrite Ht, Ho).
    destruct (isPrism tid mydim (mydim - S d)).
    + eapply both_bind; [apply IH; constructor; [exact Ht|exact C]|]. intros [[b2 c2] A2] [[b2' c2'] A2'] (E2 & C2 & R2). cbn [fst snd] in *. subst b2'. destruct b2; cbn [negb]; [|cbn; split; [reflexivity|split; [exact C2|discriminate]]]. specialize (R2 eq_refl).
      rewrite (forN_ext d (fun i norm => add norm (fnorm2 prec emax Hp He cdim (fun k => sub (A2 i k) (A i k)))) (fun i norm => add norm (fnorm2 prec emax Hp He cdim (fun k => sub (A2' i k) (A' i k))))).
      2: { intros i s Hi. f_equal. apply norm_eq. intros k Hk. now rewrite R2, R. }
      destruct (Bleb _ _); cbn; (split; [reflexivity|]); (split; [exact C2|]); [discriminate|]. intros _. now apply row_new.
    + cbn. split; [reflexivity|]. split; [exact C|]. intros _. now apply row_new.
Qed.

(** global, jacobianTransposed, affine and integrationElement read nothing but the first cdim components of the corners and the first mydim components of the point: neither the contents of local variables before the first assignment nor memory outside of the vectors. *)
Theorem C104_global : forall jv jv' vs vs' x x', ceq vs vs' -> veq mydim x x' ->
  both (veq cdim) (fmlg_global prec emax Hp He cdim tid mydim jv vs x) (fmlg_global prec emax Hp He cdim tid mydim jv' vs' x').
Proof.
  intros jv jv' vs vs' x x' HC HX. unfold fmlg_global. pose proof (glob_eq mydim false vs vs' one x x' one jv jv' HC HX ltac:(discriminate)) as G.
  destruct (glob mydim false vs _ _ _ _), (glob mydim false vs' _ _ _ _); try contradiction; [|exact I]. cbn. apply G.
Qed.
Theorem C104_jacobian : forall jm jm' jk jk' vs vs' x x', ceq vs vs' -> veq mydim x x' ->
  both (meq mydim cdim) (fmlg_jacobianTransposed prec emax Hp He cdim tid mydim jm jk vs x) (fmlg_jacobianTransposed prec emax Hp He cdim tid mydim jm' jk' vs' x').
Proof.
  intros jm jm' jk jk' vs vs' x x' HC HX. unfold fmlg_jacobianTransposed. pose proof (jt_eq jk jk' mydim false vs vs' one x x' one jm jm' HC HX ltac:(discriminate)) as G.
  destruct (fjt jk mydim false vs _ _ _ _), (fjt jk' mydim false vs' _ _ _ _); try contradiction; [|exact I]. cbn. apply G.
Qed.
Theorem C104_integrationElement : forall jm jm' jk jk' j1 j1' j2 j2' vs vs' x x', ceq vs vs' -> veq mydim x x' ->
  fmlg_integrationElement prec emax Hp He cdim tid mydim jm jk j1 j2 vs x = fmlg_integrationElement prec emax Hp He cdim tid mydim jm' jk' j1' j2' vs' x'.
Proof.
  intros jm jm' jk jk' j1 j1' j2 j2' vs vs' x x' HC HX. unfold fmlg_integrationElement. pose proof (C104_jacobian jm jm' jk jk' vs vs' x x' HC HX) as G.
  destruct (fmlg_jacobianTransposed prec emax Hp He cdim tid mydim jm jk vs x), (fmlg_jacobianTransposed prec emax Hp He cdim tid mydim jm' jk' vs' x'); try contradiction; [|reflexivity]. cbn [obind]. now apply C104_determinant.
Qed.
Theorem C104_affine : forall jm jm' jk jk' vs vs', ceq vs vs' -> fmlg_affine prec emax Hp He cdim tid mydim jm jk vs = fmlg_affine prec emax Hp He cdim tid mydim jm' jk' vs'.
Proof.
  intros jm jm' jk jk' vs vs' HC. unfold fmlg_affine. pose proof (affine_eq jk jk' mydim vs vs' jm jm' HC) as G.
  destruct (faff jk mydim vs jm) as [[[b c] A]|], (faff jk' mydim vs' jm') as [[[b' c'] A']|]; try contradiction; [|reflexivity]. cbn in *. f_equal. apply G.
Qed.
(** local, for every number of iterations *)
Definition loc_eq (r r' : FLocResult prec emax) : Prop :=
  match r, r' with
  | NwMax, NwMax | NwUndefined, NwUndefined | NwLoop, NwLoop => True
  | NwPt x, NwPt x' => veq mydim x x'
  | _, _ => False
  end.
Theorem C104_local : mydim <= cdim -> forall jv jv' jm jm' jk jk' j1 j1' j2 j2' vs vs' x x' y y' fuel, ceq vs vs' -> veq mydim x x' -> veq cdim y y' ->
  loc_eq (fmlg_local prec emax Hp He cdim tid mydim jv jm jk j1 j2 vs fuel x y) (fmlg_local prec emax Hp He cdim tid mydim jv' jm' jk' j1' j2' vs' fuel x' y').
Proof.
  intros Hmc jv jv' jm jm' jk jk' j1 j1' j2 j2' vs vs' x x' y y' fuel HC HX HY. unfold fmlg_local. rewrite (C104_affine jm jm' jk jk' vs vs' HC). destruct (fmlg_affine _ _ _ _ _ _ _ _ _ _) as [aff|]; [|exact I].
  revert x x' HX. induction fuel as [|fuel IH]; intros x x' HX; [exact I|]. cbn [fml_newton].
  assert (ST : both (fun p q => fst p = fst q /\ veq mydim (snd p) (snd q)) (fml_step prec emax Hp He cdim tid mydim jv jm jk j1 j2 vs y x) (fml_step prec emax Hp He cdim tid mydim jv' jm' jk' j1' j2' vs' y' x')).
  { unfold fml_step. eapply both_bind; [apply C104_global; eassumption|]. intros g g' Hg. eapply both_bind; [apply C104_jacobian; eassumption|]. intros A A' HA. apply C104_solve; [exact Hmc|exact HA|]. intros k Hk. now rewrite Hg, HY. }
  destruct (fml_step prec emax Hp He cdim tid mydim jv jm jk j1 j2 vs y x) as [(b, dx)|], (fml_step prec emax Hp He cdim tid mydim jv' jm' jk' j1' j2' vs' y' x') as [(b', dx')|]; cbn [both fst snd] in ST; try contradiction; [|exact I].
  destruct ST as (<- & HD). destruct b; [|exact I]. assert (HN : veq mydim (fun k => sub (x k) (dx k)) (fun k => sub (x' k) (dx' k))) by (intros k Hk; now rewrite HX, HD). cbv zeta. destruct aff; [exact HN|].
  rewrite (norm_eq mydim dx dx' HD). destruct (fgt _ _ _ _); [now apply IH|exact HN].
Qed.
End ML.

(** ** AffineGeometry *)
Theorem C104_AffineGeometry : forall mydim cdim vs vs' r r' j1 j1' j2 j2', mydim <= cdim -> Forall2 (veq cdim) vs vs' ->
  both (fun g g' => veq cdim (fai_origin prec emax g) (fai_origin prec emax g') /\ meq mydim cdim (fai_jt prec emax g) (fai_jt prec emax g') /\ meq cdim mydim (fai_jit prec emax g) (fai_jit prec emax g') /\ fai_int prec emax g = fai_int prec emax g' /\
      forall y y', veq cdim y y' -> veq mydim (fai_local prec emax Hp He cdim g y) (fai_local prec emax Hp He cdim g' y'))
    (fai_corners prec emax Hp He mydim cdim vs r j1 j2) (fai_corners prec emax Hp He mydim cdim vs' r' j1' j2').
Proof.
  intros mydim cdim vs vs' r r' j1 j1' j2 j2' Hmc HC. unfold fai_corners. destruct HC as [|o o' l l' Ho Hl]; [exact I|]. rewrite <- (both_length _ _ _ Hl). destruct (Nat.leb mydim (length l)); [|exact I].
  assert (HN : forall i, veq cdim (nth i l o) (nth i l' o')) by (clear - Ho Hl; induction Hl; intros [|i]; cbn [nth]; auto).
  assert (HJ : meq mydim cdim (fun i k => sub (nth i l o k) (o k)) (fun i k => sub (nth i l' o' k) (o' k))) by (intros i k Hi Hk; now rewrite HN, Ho).
  unfold fai_make. eapply both_bind; [apply (C104_inverse _ _ _ _ r r' j1 j2 j1' j2' Hmc HJ)|]. intros [d t] [d' t'] (E & Ht). cbn [fst snd] in *. cbn. split; [exact Ho|]. split; [exact HJ|]. split; [exact Ht|]. split; [exact E|].
  intros y y' Hy i Hi. unfold fai_local, fmtv. cbn. apply forN_ext. intros k s Hk. now rewrite (Ht k i), Hy, Ho by assumption.
Qed.
(** ** gaussNewton and LocalFiniteElementGeometry *)
Theorem C104_gaussNewton : forall mydim cdim f f' df df' y y' o x x' j1 j1' j2 j2', mydim <= cdim ->
  (forall x x', veq mydim x x' -> both (veq cdim) (f x) (f' x')) -> (forall x x', veq mydim x x' -> both (meq mydim cdim) (df x) (df' x')) -> veq cdim y y' -> veq mydim x x' ->
  both (fun p q => fst p = fst q /\ veq mydim (snd p) (snd q)) (fgaussNewton prec emax Hp He mydim cdim j1 j2 f df y o x) (fgaussNewton prec emax Hp He mydim cdim j1' j2' f' df' y' o x').
Proof.
  intros mydim cdim f f' df df' y y' o x x' j1 j1' j2 j2' Hmc HF HD HY HX.
  assert (NE : forall a b, veq cdim a b -> ftwo_norm prec emax Hp He cdim a = ftwo_norm prec emax Hp He cdim b) by (intros a b Hab; unfold ftwo_norm; now rewrite (norm_eq cdim a b Hab)).
  assert (SE : forall n x0 x0' dx dx' r a st st', veq mydim x0 x0' -> veq mydim dx dx' -> veq mydim (fst (fst st)) (fst (fst st')) -> veq cdim (snd (fst st)) (snd (fst st')) -> snd st = snd st' ->
    both (fun p q => veq mydim (fst (fst p)) (fst (fst q)) /\ veq cdim (snd (fst p)) (snd (fst q)) /\ snd p = snd q) (fgn_search prec emax Hp He cdim f y o n x0 dx r a st) (fgn_search prec emax Hp He cdim f' y' o n x0' dx' r a st')).
  { induction n as [|n IH]; intros x0 x0' dx dx' r a st st' H1 H2 H3 H4 H5; cbn [fgn_search]; [cbn; auto|].
    assert (HS : veq mydim (fun k => sub (x0 k) (mul a (dx k))) (fun k => sub (x0' k) (mul a (dx' k)))) by (intros k Hk; now rewrite H1, H2).
    cbv zeta. eapply both_bind; [apply HF; exact HS|]. intros fx fx' Hfx. assert (HDY : veq cdim (fun k => sub (fx k) (y k)) (fun k => sub (fx' k) (y' k))) by (intros k Hk; now rewrite Hfx, HY).
    rewrite (NE _ _ HDY). destruct (Bltb _ _); [cbn; auto|]. apply IH; cbn [fst snd]; auto. }
  assert (LE : forall n x x' dy dy' x0 x0' r0 r, veq mydim x x' -> veq cdim dy dy' -> veq mydim x0 x0' ->
    both (fun p q => fst p = fst q /\ veq mydim (snd p) (snd q)) (fgn_loop prec emax Hp He mydim cdim j1 j2 f df y o n x dy x0 r0 r) (fgn_loop prec emax Hp He mydim cdim j1' j2' f' df' y' o n x' dy' x0' r0 r)).
  { induction n as [|n IH]; intros z z' dy dy' x0 x0' r0 r H1 H2 H3; cbn [fgn_loop]; [destruct (negb _); cbn; auto|].
    eapply both_bind; [apply HD; exact H1|]. intros J J' HJ. eapply both_bind; [apply (C104_solve mydim cdim J J' dy dy' j1 j2 j1' j2' Hmc HJ H2)|]. intros [b dx] [b' dx'] (E & HDX). cbn [fst snd] in *. subst b'. destruct b; cbn [negb]; [|cbn; auto].
    eapply both_bind; [apply SE; cbn [fst snd]; [exact H3|exact HDX|exact H1|exact H2|reflexivity]|]. intros [[a b] c] [[a' b'] c'] (K1 & K2 & K3). cbn [fst snd] in *. subst c'. destruct (negb _); [cbn; auto|]. destruct (Bltb _ _); [cbn; auto|]. now apply IH. }
  unfold fgaussNewton. eapply both_bind; [apply HF; exact HX|]. intros fx fx' Hfx. cbv zeta. assert (HDY : veq cdim (fun k => sub (fx k) (y k)) (fun k => sub (fx' k) (y' k))) by (intros k Hk; now rewrite Hfx, HY).
  rewrite (NE _ _ HDY). now apply LE.
Qed.
Lemma nth_eq n l l' i d : Forall2 (veq n) l l' -> veq n (nth i l d) (nth i l' d).
Proof. intro H. revert i. induction H as [|a b l l' Hab Hl IH]; intros [|i]; cbn [nth]; auto; now intros k Hk. Qed.
Theorem C104_LocalFiniteElementGeometry : forall mydim cdim vs vs' sv sj sj' l1 l1' l2 l2', Forall2 (veq cdim) vs vs' -> Forall2 (veq mydim) sj sj' ->
  both (veq cdim) (flf_global prec emax Hp He cdim sv vs) (flf_global prec emax Hp He cdim sv vs') /\
  both (meq cdim mydim) (flf_jacobian prec emax Hp He cdim mydim sj vs) (flf_jacobian prec emax Hp He cdim mydim sj' vs') /\
  flf_integrationElement prec emax Hp He cdim mydim l1 l2 sj vs = flf_integrationElement prec emax Hp He cdim mydim l1' l2' sj' vs'.
Proof.
  intros mydim cdim vs vs' sv sj sj' l1 l1' l2 l2' HV HS.
  assert (J : both (meq cdim mydim) (flf_jacobian prec emax Hp He cdim mydim sj vs) (flf_jacobian prec emax Hp He cdim mydim sj' vs')).
  { unfold flf_jacobian. rewrite (both_length _ _ _ HV), (both_length _ _ _ HS). destruct (Nat.eqb _ _); [|exact I]. cbn [both]. intros j l Hj Hl.
    rewrite (lfj_at prec emax Hp He cdim mydim sj vs j l _ Hj Hl), (lfj_at prec emax Hp He cdim mydim sj' vs' j l _ Hj Hl). apply forN_ext. intros i s Hi. now rewrite (nth_eq mydim sj sj' i _ HS l Hl), (nth_eq cdim vs vs' i _ HV j Hj). }
  split; [|split; [exact J|]].
  - unfold flf_global. rewrite (both_length _ _ _ HV). destruct (Nat.eqb _ _); [|exact I]. cbn [both]. generalize (length sv). induction n as [|n IH]; [now intros k Hk|]. cbn [forN]. apply axpy_eq; [now apply nth_eq|exact IH].
  - unfold flf_integrationElement. destruct (flf_jacobian prec emax Hp He cdim mydim sj vs), (flf_jacobian prec emax Hp He cdim mydim sj' vs'); try contradiction; [|reflexivity]. cbn [obind]. apply C104_determinant. intros i k Hi Hk. now apply J.
Qed.
End T.
Print Assumptions C104_solve.
Print Assumptions C104_inverse.
Print Assumptions C104_determinant.
Print Assumptions C104_global.
Print Assumptions C104_jacobian.
Print Assumptions C104_integrationElement.
Print Assumptions C104_affine.
Print Assumptions C104_local.
Print Assumptions C104_AffineGeometry.
Print Assumptions C104_gaussNewton.
Print Assumptions C104_LocalFiniteElementGeometry.

(** the pyramid with corners in space, at (1/4, 1/4, 1/2): not-a-number in all uninitialised storage and behind the end of all vectors, or zeros *)
Definition filled (junk : binary_float 24 128) (l : list Z) : nat -> binary_float 24 128 := fun k => match nth_error l k with Some z => sgl z (-2) | None => junk end.
Example C104_example : forall junk, In junk [sgl 0 0; B754_nan; B754_infinity true] ->
  let vs := map (filled junk) [[0; 0; 0]; [8; 0; 0]; [0; 4; 0]; [8; 8; 0]; [0; 0; 4]]%Z in let x := filled junk [1; 1; 2]%Z in let m := fun _ _ : nat => junk in
  option_map (fun A => map (fun i => map (fun k => B2SF (A i k)) [0; 1; 2]) [0; 1; 2]) (fmlg_jacobianTransposed 24 128 p24 e128 3 3 3 m m vs x)
    = Some [map B2SF [sgl 2 0; sgl 1 (-1); sgl 0 0]; map B2SF [sgl 0 0; sgl 3 (-1); sgl 0 0]; map B2SF [sgl 0 0; sgl 1 (-2); sgl 1 0]] /\
  option_map B2SF (fmlg_integrationElement 24 128 p24 e128 3 3 3 m m m m vs x) = Some (B2SF (sgl 3 0)).
Proof. intros junk [<-|[<-|[<-|[]]]]; split; vm_compute; reflexivity. Qed.
