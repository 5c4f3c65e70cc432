(** Loop lemmas for M_Matrix: what each helper computes, entry by entry. *)
From Coq Require Import PeanoNat Lia Bool List Reals Lra FunctionalExtensionality.
From Verif Require Import M_Type M_RefTopo M_RefGeo M_Matrix S_Matrix P_RSum.
Local Open Scope R_scope.

Lemma forN_inv {S} (P : nat -> S -> Prop) n body s :
  P 0%nat s -> (forall k s, (k < n)%nat -> P k s -> P (Datatypes.S k) (body k s)) -> P n (forN n body s).
Proof. intros H0 Hs. induction n; simpl; [assumption|]. apply Hs; [lia|]. apply IHn. intros; apply Hs; [lia|assumption]. Qed.
Lemma forN_ext {S} n (f g : nat -> S -> S) s : (forall k s, (k < n)%nat -> f k s = g k s) -> forN n f s = forN n g s.
Proof. intro H. induction n; simpl; [reflexivity|]. rewrite IHn by (intros; apply H; lia). apply H; lia. Qed.
Lemma mupd_mupd m i j x y : mupd (mupd m i j x) i j y = mupd m i j y.
Proof. extensionality a; extensionality b. unfold mupd, upd. destruct (Nat.eqb a i); [|reflexivity]. now destruct (Nat.eqb b j). Qed.
Lemma mupd_same m i j x : mupd m i j x i j = x.
Proof. now rewrite mupd_row, upd_eq. Qed.
Lemma mupd_other m i j x a b : a <> i \/ b <> j -> mupd m i j x a b = m a b.
Proof.
  intro H. destruct (Nat.eq_dec a i); [subst|now rewrite mupd_ne]. rewrite mupd_row.
  apply upd_ne. intuition.
Qed.
Lemma mupd_case m i j x a b : mupd m i j x a b = if andb (Nat.eqb a i) (Nat.eqb b j) then x else m a b.
Proof. unfold mupd, upd. destruct (Nat.eqb a i); reflexivity. Qed.
Lemma upd_upd v k x y : upd (upd v k x) k y = upd v k y.
Proof. extensionality a. unfold upd. now destruct (Nat.eqb a k). Qed.

Lemma forN_madd n f i j ret a :
  forN n (fun k ret => mupd ret i j (ret i j + f k)) (mupd ret i j a) = mupd ret i j (a + rsum n f).
Proof. induction n; simpl; [f_equal; lra|]. rewrite IHn, mupd_mupd, mupd_same. f_equal. lra. Qed.
Lemma forN_vadd n f i ret a :
  forN n (fun k ret => upd ret i (ret i + f k)) (upd ret i a) = upd ret i (a + rsum n f).
Proof. induction n; simpl; [f_equal; lra|]. rewrite IHn, upd_upd, upd_eq. f_equal. lra. Qed.
Lemma forN_add n f a : forN n (fun k x => x + f k) a = a + rsum n f.
Proof. induction n; simpl; [lra|]. rewrite IHn. lra. Qed.
Lemma forN_sub n f a : forN n (fun k x => x - f k) a = a - rsum n f.
Proof. induction n; simpl; [lra|]. rewrite IHn. lra. Qed.
Lemma rsum_from lo hi f : (lo <= hi)%nat ->
  rsum (hi - lo) (fun k => f (lo + k)%nat) = rsum hi (fun k => if Nat.leb lo k then f k else 0).
Proof.
  intro H. replace hi with (lo + (hi - lo))%nat at 2 by lia. rewrite rsum_app.
  rewrite (rsum_0 lo), Rplus_0_l.
  - apply rsum_ext. intros k Hk. now rewrite (proj2 (Nat.leb_le lo (lo + k))) by lia.
  - intros k Hk. now rewrite (proj2 (Nat.leb_gt lo k)) by lia.
Qed.

(** filling one row up to a bound, then all rows *)
Lemma fill_row i p g (ret : Mat) a b :
  forN p (fun j ret => mupd ret i j (g j)) ret a b = if andb (Nat.eqb a i) (Nat.ltb b p) then g b else ret a b.
Proof.
  induction p; simpl.
  - now rewrite andb_false_r.
  - rewrite mupd_case, IHp. destruct (Nat.eqb_spec a i); simpl; [|reflexivity].
    destruct (Nat.eqb_spec b p).
    + subst. now rewrite (proj2 (Nat.ltb_lt p (S p))) by lia.
    + destruct (Nat.ltb_spec b p), (Nat.ltb_spec b (S p)); try lia; reflexivity.
Qed.
Lemma fill_all n (p : nat -> nat) (g : nat -> nat -> R) (ret : Mat) a b :
  forN n (fun i ret => forN (p i) (fun j ret => mupd ret i j (g i j)) ret) ret a b =
  if andb (Nat.ltb a n) (Nat.ltb b (p a)) then g a b else ret a b.
Proof.
  induction n; simpl; [reflexivity|].
  rewrite fill_row, IHn. destruct (Nat.eqb_spec a n).
  - subst. rewrite Nat.ltb_irrefl. rewrite (proj2 (Nat.ltb_lt n (S n))) by lia. reflexivity.
  - simpl. destruct (Nat.ltb_spec a n), (Nat.ltb_spec a (S n)); try lia; reflexivity.
Qed.
Lemma fill_vec n (g : nat -> R) (ret : Vec) a :
  forN n (fun i ret => upd ret i (g i)) ret a = if Nat.ltb a n then g a else ret a.
Proof.
  induction n; simpl; [reflexivity|]. unfold upd at 1. destruct (Nat.eqb_spec a n).
  - subst. now rewrite (proj2 (Nat.ltb_lt n (S n))) by lia.
  - rewrite IHn. destruct (Nat.ltb_spec a n), (Nat.ltb_spec a (S n)); try lia; reflexivity.
Qed.

Lemma ATBT_spec m n p A B ret i j :
  ATBT m n p A B ret i j = if andb (Nat.ltb i n) (Nat.ltb j p) then rsum m (fun k => A k i * B j k) else ret i j.
Proof.
  unfold ATBT. rewrite <- (fill_all n (fun _ => p) (fun i j => rsum m (fun k => A k i * B j k)) ret).
  refine (f_equal (fun M : Mat => M i j) _). apply forN_ext. intros k s _. apply forN_ext. intros l t _.
  rewrite forN_madd. f_equal. lra.
Qed.
Lemma ATA_L_spec m n A ret i j :
  ATA_L m n A ret i j = if andb (Nat.ltb i n) (Nat.ltb j (S i)) then rsum m (fun k => A k i * A k j) else ret i j.
Proof.
  unfold ATA_L. rewrite <- (fill_all n S (fun i j => rsum m (fun k => A k i * A k j)) ret).
  refine (f_equal (fun M : Mat => M i j) _). apply forN_ext. intros k s _. apply forN_ext. intros l t _.
  rewrite forN_madd. f_equal. lra.
Qed.
Lemma AAT_L_spec m n A ret i j : (0 < n)%nat ->
  AAT_L m n A ret i j = if andb (Nat.ltb i m) (Nat.ltb j (S i)) then rsum n (fun k => A i k * A j k) else ret i j.
Proof.
  intro Hn. unfold AAT_L. rewrite <- (fill_all m S (fun i j => rsum n (fun k => A i k * A j k)) ret).
  refine (f_equal (fun M : Mat => M i j) _). apply forN_ext. intros k s _. apply forN_ext. intros l t _.
  unfold forR. rewrite (forN_madd (n - 1) (fun x => A k (1 + x)%nat * A l (1 + x)%nat)). f_equal.
  destruct n; [lia|]. rewrite rsum_shift. replace (S n - 1)%nat with n by lia. reflexivity.
Qed.
Lemma Lx_spec n L x ret i : Lx n L x ret i = if Nat.ltb i n then rsum n (fun j => low L i j * x j) else ret i.
Proof.
  unfold Lx. rewrite <- (fill_vec n (fun i => rsum n (fun j => low L i j * x j))).
  refine (f_equal (fun M : Vec => M i) _). apply forN_ext. intros k s Hk. rewrite forN_vadd. f_equal. rewrite Rplus_0_l.
  rewrite (rsum_trunc (S k) n); [|lia|].
  - apply rsum_ext. intros j Hj. unfold low. now rewrite (proj2 (Nat.leb_le j k)) by lia.
  - intros j Hj. unfold low. rewrite (proj2 (Nat.leb_gt j k)) by lia. apply Rmult_0_l.
Qed.
Lemma LTx_spec n L x ret i : LTx n L x ret i = if Nat.ltb i n then rsum n (fun j => low L j i * x j) else ret i.
Proof.
  unfold LTx. rewrite <- (fill_vec n (fun i => rsum n (fun j => low L j i * x j))).
  refine (f_equal (fun M : Vec => M i) _). apply forN_ext. intros k s Hk. unfold forR.
  rewrite (forN_vadd (n - k) (fun j => L (k + j)%nat k * x (k + j)%nat)). f_equal. rewrite Rplus_0_l.
  rewrite (rsum_from k n (fun j => L j k * x j)) by lia.
  apply rsum_ext. intros j Hj. unfold low. destruct (Nat.leb k j); lra.
Qed.

(** the symmetric fills of AAT, LTL and LLT *)
Lemma fill_sym n (g : nat -> nat -> R) (ret : Mat) :
  (forall i j, g i j = g j i) ->
  forall i j, forN n (fun i ret =>
    mupd (forN i (fun j ret => mupd (mupd ret i j (g i j)) j i (g i j)) ret) i i (g i i)) ret i j =
  if andb (Nat.ltb i n) (Nat.ltb j n) then g i j else ret i j.
Proof.
  intro Hg. induction n; simpl; intros i j; [reflexivity|].
  set (s := forN n _ ret) in *.
  assert (HI : forall p a b, (p <= n)%nat -> forN p (fun j ret => mupd (mupd ret n j (g n j)) j n (g n j)) s a b =
     if orb (andb (Nat.eqb a n) (Nat.ltb b p)) (andb (Nat.eqb b n) (Nat.ltb a p)) then g a b else s a b).
  { clear -Hg. induction p; intros a b Hp; simpl.
    - now rewrite !andb_false_r.
    - rewrite !mupd_case, IHp by lia.
      destruct (Nat.eqb_spec a p), (Nat.eqb_spec b n), (Nat.eqb_spec a n), (Nat.eqb_spec b p); subst; simpl; try lia;
      rewrite ?Nat.ltb_irrefl; simpl;
      repeat match goal with |- context [Nat.ltb ?x ?y] => destruct (Nat.ltb_spec x y) end; simpl; try lia; auto. }
  rewrite mupd_case, HI, IHn by lia.
  destruct (Nat.eqb_spec i n), (Nat.eqb_spec j n); subst; simpl;
      repeat match goal with |- context [Nat.ltb ?x ?y] => destruct (Nat.ltb_spec x y) end; simpl; try lia; auto.
Qed.

Lemma LTL_spec n L ret i j :
  LTL n L ret i j = if andb (Nat.ltb i n) (Nat.ltb j n) then rsum n (fun k => low L k i * low L k j) else ret i j.
Proof.
  unfold LTL. rewrite <- (fill_sym n (fun i j => rsum n (fun k => low L k i * low L k j)) ret).
  2:{ intros. apply rsum_ext. intros. apply Rmult_comm. }
  refine (f_equal (fun M : Mat => M i j) _). apply forN_ext. intros k s Hk. cbv zeta.
  assert (E : forall k l, (l <= k < n)%nat -> 0 + rsum (n - k) (fun j => L (k + j)%nat k * L (k + j)%nat l) = rsum n (fun x => low L x k * low L x l)).
  { intros k' l Hl. rewrite Rplus_0_l, (rsum_from k' n (fun j => L j k' * L j l)) by lia.
    apply rsum_ext. intros x Hx. unfold low.
    destruct (Nat.leb_spec k' x), (Nat.leb_spec l x); try lia; try lra. }
  unfold forR. rewrite (forN_madd (n - k) (fun j => L (k + j)%nat k * L (k + j)%nat k)), E by lia. f_equal.
  apply forN_ext. intros l t Hl.
  rewrite (forN_madd (n - k) (fun j => L (k + j)%nat k * L (k + j)%nat l)), E by lia.
  now rewrite mupd_same.
Qed.
Lemma LLT_spec n L ret i j :
  LLT n L ret i j = if andb (Nat.ltb i n) (Nat.ltb j n) then rsum n (fun k => low L i k * low L j k) else ret i j.
Proof.
  unfold LLT. rewrite <- (fill_sym n (fun i j => rsum n (fun k => low L i k * low L j k)) ret).
  2:{ intros. apply rsum_ext. intros. apply Rmult_comm. }
  refine (f_equal (fun M : Mat => M i j) _). apply forN_ext. intros k s Hk. cbv zeta.
  assert (E : forall k l, (l <= k < n)%nat -> 0 + rsum (S l) (fun j => L k j * L l j) = rsum n (fun x => low L k x * low L l x)).
  { intros k' l Hl. rewrite Rplus_0_l, (rsum_trunc (S l) n).
    - apply rsum_ext. intros x Hx. unfold low.
      rewrite !(proj2 (Nat.leb_le _ _)) by lia. reflexivity.
    - lia.
    - intros x Hx. unfold low. rewrite (proj2 (Nat.leb_gt x l)) by lia. lra. }
  rewrite (forN_madd (S k) (fun j => L k j * L k j)), E by lia. f_equal.
  apply forN_ext. intros l t Hl.
  rewrite (forN_madd (S l) (fun j => L k j * L l j)), E by lia.
  now rewrite mupd_same.
Qed.
Lemma AAT_spec m n A ret i j :
  AAT m n A ret i j = if andb (Nat.ltb i m) (Nat.ltb j m) then rsum n (fun k => A i k * A j k) else ret i j.
Proof.
  unfold AAT. rewrite <- (fill_sym m (fun i j => rsum n (fun k => A i k * A j k)) ret).
  2:{ intros. apply rsum_ext. intros. apply Rmult_comm. }
  refine (f_equal (fun M : Mat => M i j) _). apply forN_ext. intros k s Hk. cbv zeta.
  rewrite (forN_madd n (fun j => A k j * A k j)), Rplus_0_l. f_equal.
  apply forN_ext. intros l t Hl.
  rewrite (forN_madd n (fun j => A k j * A l j)), Rplus_0_l.
  now rewrite mupd_same.
Qed.
