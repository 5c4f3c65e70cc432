(** The triangular solves, the products and the Cholesky decomposition of M_FloatLocal, entry by
    entry: every entry is one loop over final entries. *)
From Coq Require Import PeanoNat ZArith Bool List Lia FunctionalExtensionality.
From Flocq Require Import Core IEEE754.BinarySingleNaN.
From Verif Require Import M_RefTopo M_Matrix M_Float M_FloatGlobal M_FloatLocal P_Matrix.
Import ListNotations.

Section FM.
Variables (prec emax : Z).
Context (Hp : Prec_gt_0 prec) (He : Prec_lt_emax prec emax).
Notation float := (binary_float prec emax).
Notation FVec := (nat -> float).
Notation FMat := (nat -> nat -> float).
Notation add := (fadd prec emax Hp He).
Notation sub := (fsub prec emax Hp He).
Notation mul := (fmul prec emax Hp He).
Notation div := (fdiv prec emax Hp He).
Notation sqr := (fsqrt prec emax Hp He).
Notation one := (ofZ prec emax Hp He 1).
Notation zero := (ofZ prec emax Hp He 0).
Notation upd := (fupd prec emax).
Notation mupd := (fmupd prec emax).

Lemma upd_same x i v : upd x i v i = v. Proof. unfold fupd. now rewrite Nat.eqb_refl. Qed.
Lemma upd_other x i v k : k <> i -> upd x i v k = x k. Proof. intro H. unfold fupd. now rewrite (proj2 (Nat.eqb_neq k i)). Qed.
Lemma mupd_same m i k v : mupd m i k v i k = v. Proof. unfold fmupd. now rewrite !Nat.eqb_refl. Qed.
Lemma mupd_other m i k v i' k' : i' <> i \/ k' <> k -> mupd m i k v i' k' = m i' k'.
Proof. intro H. unfold fmupd. destruct (Nat.eqb_spec i' i), (Nat.eqb_spec k' k); auto. lia. Qed.

(** x[i] -= c_j * x[f j] for several j *)
Lemma row_loop (c : nat -> float) (f : nat -> nat) i : forall m x, (forall j, (j < m)%nat -> f j <> i) -> forall k,
  forN m (fun j x => upd x i (sub (x i) (mul (c j) (x (f j))))) x k =
  if Nat.eqb k i then forN m (fun j s => sub s (mul (c j) (x (f j)))) (x i) else x k.
Proof.
  induction m; intros x H k.
  - cbn [forN]. destruct (Nat.eqb_spec k i) as [->|]; reflexivity.
  - cbn [forN]. assert (H' : forall j, (j < m)%nat -> f j <> i) by (intros; apply H; lia).
    destruct (Nat.eqb_spec k i) as [->|N].
    + rewrite upd_same, !(IHm x H'), Nat.eqb_refl, (proj2 (Nat.eqb_neq (f m) i)); [reflexivity|apply H; lia].
    + rewrite upd_other by assumption. rewrite (IHm x H'), (proj2 (Nat.eqb_neq k i) N). reflexivity.
Qed.

Section Solve.
Variables (n : nat) (L : FMat) (b : FVec).
Notation X := (finvLx prec emax Hp He n L b).
Lemma finvLx_row i : (i < n)%nat -> X i = div (forN i (fun j s => sub s (mul (L i j) (X j))) (b i)) (L i i).
Proof.
  intro Hi. unfold finvLx. set (body := fun i (x : FVec) => let x := forN i _ x in upd x i (div (x i) (L i i))).
  assert (K : forall m, (forall k, (m <= k)%nat -> forN m body b k = b k) /\
    (forall i, (i < m)%nat -> forN m body b i = div (forN i (fun j s => sub s (mul (L i j) (forN m body b j))) (b i)) (L i i))).
  { induction m; [split; [reflexivity|intros; lia]|]. destruct IHm as (K1 & K2). cbn [forN]. set (x := forN m body b) in *.
    assert (O : forall k, k <> m -> body m x k = x k).
    { intros k N. unfold body. rewrite upd_other by assumption.
      rewrite (row_loop (L m) (fun j => j)) by (intros; lia). now rewrite (proj2 (Nat.eqb_neq k m)). }
    split; [intros k Hk; rewrite O by lia; apply K1; lia|]. intros i' Hi'. destruct (Nat.eq_dec i' m) as [->|N].
    - unfold body at 1. rewrite upd_same, (row_loop (L m) (fun j => j)) by (intros; lia). rewrite Nat.eqb_refl, K1 by lia.
      f_equal. apply forN_ext. intros j s Hj. now rewrite O by lia.
    - rewrite O by assumption. rewrite K2 by lia. f_equal. apply forN_ext. intros j s Hj. now rewrite O by lia. }
  exact (proj2 (K n) i Hi).
Qed.
Notation Y := (finvLTx prec emax Hp He n L b).
Lemma finvLTx_row i : (i < n)%nat -> Y i = div (forN (n - S i) (fun j s => sub s (mul (L (S i + j)%nat i) (Y (S i + j)%nat))) (b i)) (L i i).
Proof.
  intro Hi. unfold finvLTx. set (body := fun t (x : FVec) => let i := (n - t)%nat in let x := forR i n _ x in upd x (i - 1)%nat _).
  assert (K : forall m, (m <= n)%nat -> (forall k, (k < n - m)%nat -> forN m body b k = b k) /\
    (forall i, (n - m <= i < n)%nat -> forN m body b i = div (forN (n - S i) (fun j s => sub s (mul (L (S i + j)%nat i) (forN m body b (S i + j)%nat))) (b i)) (L i i))).
  { induction m; intro Hm; [split; [reflexivity|intros; lia]|]. destruct IHm as (K1 & K2); [lia|]. cbn [forN]. set (x := forN m body b) in *.
    set (r := (n - m - 1)%nat). assert (Er : (n - m = S r)%nat) by lia.
    assert (O : forall k, k <> r -> body m x k = x k).
    { intros k N. unfold body. cbv zeta. rewrite Er. cbn [Nat.sub]. rewrite Nat.sub_0_r. rewrite upd_other by assumption. unfold forR.
      rewrite (row_loop (fun j => L (S r + j)%nat r) (fun j => (S r + j)%nat)) by (intros; lia). now rewrite (proj2 (Nat.eqb_neq k r)). }
    split; [intros k Hk; rewrite O by lia; apply K1; lia|]. intros i' Hi'. destruct (Nat.eq_dec i' r) as [->|N].
    - unfold body at 1. cbv zeta. rewrite Er. cbn [Nat.sub]. rewrite Nat.sub_0_r. rewrite upd_same. unfold forR.
      rewrite (row_loop (fun j => L (S r + j)%nat r) (fun j => (S r + j)%nat)) by (intros; lia). rewrite Nat.eqb_refl, K1 by lia.
      f_equal. apply forN_ext. intros j s Hj. now rewrite O by lia.
    - rewrite O by assumption. rewrite K2 by lia. f_equal. apply forN_ext. intros j s Hj. now rewrite O by lia. }
  apply (proj2 (K n (le_n n)) i). lia.
Qed.
End Solve.

(** ** Cholesky *)
Section Chol.
Variables (n : nat) (A : FMat).
Definition col_ok (R : FMat) (i : nat) : Prop :=
  fgt prec emax (forN i (fun j s => sub s (mul (R i j) (R i j))) (A i i)) zero = true /\
  R i i = sqr (forN i (fun j s => sub s (mul (R i j) (R i j))) (A i i)) /\
  forall k, (i < k < n)%nat -> R k i = mul (div one (R i i)) (forN i (fun j s => sub s (mul (R i j) (R k j))) (A k i)).
Lemma col_ok_ext R R' i : (forall k j, (j <= i)%nat -> R' k j = R k j) -> col_ok R i -> col_ok R' i.
Proof.
  intros E (G & D & C). unfold col_ok.
  rewrite !E by lia. rewrite (forN_ext i (fun j s => sub s (mul (R' i j) (R' i j))) (fun j s => sub s (mul (R i j) (R i j)))) by (intros; now rewrite !E by lia).
  split; [exact G|]. split; [exact D|]. intros k Hk. rewrite !E by lia. rewrite C by exact Hk. f_equal. apply forN_ext. intros j s Hj. now rewrite !E by lia.
Qed.
Lemma column_entry R i : forall m, (S i + m <= n)%nat -> forall k j,
  forN m (fun t ret => mupd ret (S i + t)%nat i (mul (div one (R i i)) (forN i (fun j x => sub x (mul (ret i j) (ret (S i + t)%nat j))) (A (S i + t)%nat i)))) R k j =
  if Nat.eqb j i && Nat.leb (S i) k && Nat.ltb k (S i + m) then mul (div one (R i i)) (forN i (fun j x => sub x (mul (R i j) (R k j))) (A k i)) else R k j.
Proof.
  induction m; intros Hm k j.
  - cbn [forN]. rewrite Nat.add_0_r. destruct (Nat.eqb j i); cbn [andb]; [|reflexivity].
    destruct (Nat.leb_spec (S i) k), (Nat.ltb_spec k (S i)); cbn [andb]; try reflexivity. lia.
  - cbn [forN]. assert (IH := IHm ltac:(lia)).
    assert (I : forall k j, (j < i)%nat -> forN m (fun t ret => mupd ret (S i + t)%nat i (mul (div one (R i i)) (forN i (fun j x => sub x (mul (ret i j) (ret (S i + t)%nat j))) (A (S i + t)%nat i)))) R k j = R k j).
    { intros k' j' Hj. rewrite IH. now rewrite (proj2 (Nat.eqb_neq j' i)) by lia. }
    destruct (Nat.eqb_spec j i) as [->|N]; cbn [andb].
    + destruct (Nat.eq_dec k (S i + m)) as [->|Nk].
      * rewrite mupd_same. rewrite (proj2 (Nat.leb_le (S i) (S i + m))) by lia. rewrite (proj2 (Nat.ltb_lt (S i + m) (S i + S m))) by lia. cbn [andb].
        f_equal. apply forN_ext. intros j s Hj. now rewrite !I by exact Hj.
      * rewrite mupd_other by lia. rewrite IH, Nat.eqb_refl. cbn [andb].
        destruct (Nat.leb_spec (S i) k), (Nat.ltb_spec k (S i + m)), (Nat.ltb_spec k (S i + S m)); cbn [andb]; try reflexivity; lia.
    + rewrite mupd_other by lia. rewrite IH, (proj2 (Nat.eqb_neq j i) N). reflexivity.
Qed.
Lemma fcholesky_spec ret cs R : fcholesky_L prec emax Hp He n A ret cs = Some (true, R) -> forall i, (i < n)%nat -> col_ok R i.
Proof.
  unfold fcholesky_L. set (body := fun i f => fbind f _).
  assert (K : forall m, (m <= n)%nat -> match forN m body (Run ret) with Run R => forall i, (i < m)%nat -> col_ok R i | Ret b _ => b = false | Fail => True end).
  { induction m; intro Hm; [change (forall i, (i < 0)%nat -> col_ok ret i); intros; lia|]. specialize (IHm ltac:(lia)). cbn [forN]. destruct (forN m body (Run ret)) as [Q|b Q|].
    - unfold body. cbn [fbind]. unfold fcholesky_pivot.
      set (pv := forN m (fun j s => sub s (mul (Q m j) (Q m j))) (A m m)).
      destruct (fgt prec emax pv zero) eqn:G; cbn [negb andb].
      2: { destruct cs; cbn [andb]; auto. }
      rewrite andb_false_r. intros i Hi. unfold fcholesky_column, forR.
      set (Q' := mupd Q m m (sqr pv)).
      assert (E : forall k j, forN (n - S m) (fun k ret => mupd ret (S m + k)%nat m (mul (div one (Q' m m)) (forN m (fun j x => sub x (mul (ret m j) (ret (S m + k)%nat j))) (A (S m + k)%nat m)))) Q' k j =
        if Nat.eqb j m && Nat.leb (S m) k && Nat.ltb k n then mul (div one (Q' m m)) (forN m (fun j x => sub x (mul (Q' m j) (Q' k j))) (A k m)) else Q' k j).
      { intros k j. rewrite column_entry by lia. now replace (S m + (n - S m))%nat with n by lia. }
      cbv zeta. set (Q'' := forN (n - S m) _ Q') in *. clearbody Q''.
      assert (O : forall k j, (j < m)%nat -> Q' k j = Q k j) by (intros; unfold Q'; apply mupd_other; lia).
      assert (O' : forall k j, (j < m)%nat -> Q'' k j = Q k j) by (intros k j Hj; rewrite E, (proj2 (Nat.eqb_neq j m)) by lia; now apply O).
      destruct (Nat.eq_dec i m) as [->|N].
      + assert (D : Q'' m m = sqr pv).
        { rewrite E, Nat.eqb_refl. cbn [andb]. rewrite (proj2 (Nat.leb_gt (S m) m)) by lia. cbn [andb]. apply mupd_same. }
        unfold col_ok. rewrite D. rewrite (forN_ext m (fun j s => sub s (mul (Q'' m j) (Q'' m j))) (fun j s => sub s (mul (Q m j) (Q m j)))) by (intros; now rewrite !O' by assumption).
        split; [exact G|]. split; [reflexivity|]. intros k Hk. rewrite E, Nat.eqb_refl, (proj2 (Nat.leb_le (S m) k)), (proj2 (Nat.ltb_lt k n)) by lia. cbn [andb].
        unfold Q' at 1. rewrite mupd_same. f_equal. apply forN_ext. intros j s Hj. now rewrite !O, !O' by assumption.
      + apply (col_ok_ext Q); [intros; apply O'; lia|]. apply IHm. lia.
    - cbn [fbind]. exact IHm.
    - exact I. }
  specialize (K n (le_n n)). destruct (forN n body (Run ret)); intro E; [injection E as <-; exact K| |discriminate].
  injection E as -> _. discriminate K.
Qed.
End Chol.

(** ** products *)
Lemma fAAT_entry m n A ret i j : (j <= i < m)%nat ->
  fAAT_L prec emax Hp He m n A ret i j = forN (n - 1) (fun k s => add s (mul (A i (1 + k)%nat) (A j (1 + k)%nat))) (mul (A i 0%nat) (A j 0%nat)).
Proof.
  intro H. unfold fAAT_L.
  set (ent := fun i j => forN (n - 1) (fun k s => add s (mul (A i (1 + k)%nat) (A j (1 + k)%nat))) (mul (A i 0%nat) (A j 0%nat))).
  assert (I1 : forall i j v q ret, forN q (fun k ret => mupd ret i j (add (ret i j) (mul (A i (1 + k)%nat) (A j (1 + k)%nat)))) (mupd ret i j v) =
     mupd ret i j (forN q (fun k s => add s (mul (A i (1 + k)%nat) (A j (1 + k)%nat))) v)).
  { clear. intros i j v q ret. induction q; [reflexivity|]. cbn [forN]. rewrite IHq, mupd_same. extensionality a. extensionality b. unfold fmupd.
    destruct (Nat.eqb a i && Nat.eqb b j); reflexivity. }
  assert (I2 : forall i q ret a b, forN q (fun j ret => forR 1 n (fun k ret => mupd ret i j (add (ret i j) (mul (A i k) (A j k)))) (mupd ret i j (mul (A i 0%nat) (A j 0%nat)))) ret a b =
     if Nat.eqb a i && Nat.ltb b q then ent i b else ret a b).
  { intros i' q. induction q; intros ret' a b; [cbn [forN]; now rewrite andb_false_r|]. cbn [forN]. unfold forR in *. rewrite I1. unfold fmupd at 1. fold (ent i' q).
    rewrite IHq. destruct (Nat.eqb_spec a i'); cbn [andb]; [|reflexivity].
    destruct (Nat.eqb_spec b q) as [->|N]; [now rewrite (proj2 (Nat.ltb_lt q (S q))) by lia|].
    destruct (Nat.ltb_spec b q), (Nat.ltb_spec b (S q)); try reflexivity; lia. }
  assert (I3 : forall q ret a b, forN q (fun i ret => forN (S i) (fun j ret => forR 1 n (fun k ret => mupd ret i j (add (ret i j) (mul (A i k) (A j k)))) (mupd ret i j (mul (A i 0%nat) (A j 0%nat)))) ret) ret a b =
     if Nat.ltb a q && Nat.leb b a then ent a b else ret a b).
  { induction q; intros ret' a b; [reflexivity|].
    change (forN (S q) ?f ?r) with (f q (forN q f r)). cbv beta. rewrite I2, IHq. destruct (Nat.eqb_spec a q) as [->|N].
    - rewrite (proj2 (Nat.ltb_lt q (S q))), (proj2 (Nat.ltb_ge q q)) by lia. cbn [andb].
      destruct (Nat.ltb_spec b (S q)), (Nat.leb_spec b q); try reflexivity; lia.
    - cbn [andb]. destruct (Nat.ltb_spec a q), (Nat.ltb_spec a (S q)); try reflexivity; lia. }
  rewrite I3. now rewrite (proj2 (Nat.ltb_lt i m)), (proj2 (Nat.leb_le j i)) by lia.
Qed.
End FM.
