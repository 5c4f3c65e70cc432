(** The products, the inverse of a triangular matrix and the determinant of M_FloatLocal, entry by entry. *)
From Coq Require Import PeanoNat ZArith Bool List Lia FunctionalExtensionality.
From Flocq Require Import Core IEEE754.BinarySingleNaN.
From Verif Require Import M_RefTopo M_Matrix M_Float M_FloatGlobal M_FloatLocal P_Matrix P_FloatMat1.
Import ListNotations.

Section FM3.
Variables (prec emax : Z).
Context (Hp : Prec_gt_0 prec) (He : Prec_lt_emax prec emax).
Notation float := (binary_float prec emax).
Notation FMat := (nat -> nat -> float).
Notation add := (fadd prec emax Hp He).
Notation mul := (fmul prec emax Hp He).
Notation div := (fdiv prec emax Hp He).
Notation one := (ofZ prec emax Hp He 1).
Notation zero := (ofZ prec emax Hp He 0).
Notation mupd := (fmupd prec emax).

Lemma mupd2 m i k v w : mupd (mupd m i k v) i k w = mupd m i k w.
Proof. extensionality a. extensionality b. unfold fmupd. destruct (Nat.eqb a i && Nat.eqb b k); reflexivity. Qed.
Lemma madd_loop (f : nat -> float) i j v q ret :
  forN q (fun k ret => mupd ret i j (add (ret i j) (f k))) (mupd ret i j v) = mupd ret i j (forN q (fun k s => add s (f k)) v).
Proof. induction q; [reflexivity|]. cbn [forN]. now rewrite IHq, mupd_same, mupd2. Qed.

Lemma frow i p (g : nat -> float) (ret : FMat) a b :
  forN p (fun j ret => mupd ret i j (g j)) ret a b = if Nat.eqb a i && Nat.ltb b p then g b else ret a b.
Proof.
  induction p; cbn [forN]; [now rewrite andb_false_r|]. unfold fmupd at 1. rewrite IHp.
  destruct (Nat.eqb_spec a i); cbn [andb]; [|reflexivity].
  destruct (Nat.eqb_spec b p) as [->|]; [now rewrite (proj2 (Nat.ltb_lt p (S p))) by lia|].
  destruct (Nat.ltb_spec b p), (Nat.ltb_spec b (S p)); try lia; reflexivity.
Qed.
Lemma fATBT_entry m n p A B ret i j : (i < n)%nat -> (j < p)%nat ->
  fATBT prec emax Hp He m n p A B ret i j = forN m (fun k s => add s (mul (A k i) (B j k))) zero.
Proof.
  intros Hi Hj. unfold fATBT.
  assert (K : forall q a b, (b < p)%nat -> forN q (fun i ret => forN p (fun j ret => forN m (fun k ret => mupd ret i j (add (ret i j) (mul (A k i) (B j k)))) (mupd ret i j zero)) ret) ret a b =
    if Nat.ltb a q then forN m (fun k s => add s (mul (A k a) (B b k))) zero else ret a b).
  { intros q a b Hb. induction q; [reflexivity|]. change (forN (S q) ?f ?r) with (f q (forN q f r)). cbv beta.
    set (r := forN q _ ret) in *.
    rewrite (forN_ext p _ (fun j ret => mupd ret q j (forN m (fun k s => add s (mul (A k q) (B j k))) zero))) by (intros; apply madd_loop).
    rewrite (frow q p (fun j => forN m (fun k s => add s (mul (A k q) (B j k))) zero)). rewrite (proj2 (Nat.ltb_lt b p) Hb), andb_true_r.
    destruct (Nat.eqb_spec a q) as [->|]; [now rewrite (proj2 (Nat.ltb_lt q (S q))) by lia|].
    rewrite IHq. destruct (Nat.ltb_spec a q), (Nat.ltb_spec a (S q)); try lia; reflexivity. }
  rewrite K by exact Hj. now rewrite (proj2 (Nat.ltb_lt i n) Hi).
Qed.

Lemma fLTL_entry n L ret i j : (j <= i < n)%nat ->
  fLTL prec emax Hp He n L ret i j = forN (n - i) (fun k s => add s (mul (L (i + k)%nat i) (L (i + k)%nat j))) zero /\
  fLTL prec emax Hp He n L ret j i = fLTL prec emax Hp He n L ret i j.
Proof.
  intro H. set (g := fun i j => forN (n - i) (fun k s => add s (mul (L (i + k)%nat i) (L (i + k)%nat j))) zero).
  assert (E : fLTL prec emax Hp He n L ret = forN n (fun i ret => mupd (forN i (fun j ret => mupd (mupd ret i j (g i j)) j i (g i j)) ret) i i (g i i)) ret).
  { unfold fLTL. apply forN_ext. intros k s Hk. cbv zeta. unfold forR. rewrite (madd_loop (fun x => mul (L (k + x)%nat k) (L (k + x)%nat k))). f_equal.
    apply forN_ext. intros l t Hl. rewrite (madd_loop (fun x => mul (L (k + x)%nat k) (L (k + x)%nat l))). rewrite mupd_same. reflexivity. }
  rewrite E. clear E.
  assert (HI : forall n p s a b, (p <= n)%nat -> forN p (fun j ret => mupd (mupd ret n j (g n j)) j n (g n j)) s a b =
     if orb (andb (Nat.eqb a n) (Nat.ltb b p)) (andb (Nat.eqb b n) (Nat.ltb a p)) then g n (Nat.min a b) else s a b).
  { clear. intro n'. induction p; intros s a b Hpn; cbn [forN].
    - now rewrite !andb_false_r.
    - unfold fmupd. rewrite IHp by lia.
      destruct (Nat.eqb_spec a p), (Nat.eqb_spec b n'), (Nat.eqb_spec a n'), (Nat.eqb_spec b p); subst; cbn [andb orb]; try lia;
      rewrite ?Nat.ltb_irrefl; cbn [andb orb];
      repeat match goal with |- context [Nat.ltb ?x ?y] => destruct (Nat.ltb_spec x y) end; cbn [andb orb]; try lia; auto; f_equal; lia. }
  assert (K : forall q a b, forN q (fun i ret => mupd (forN i (fun j ret => mupd (mupd ret i j (g i j)) j i (g i j)) ret) i i (g i i)) ret a b =
     if andb (Nat.ltb a q) (Nat.ltb b q) then g (Nat.max a b) (Nat.min a b) else ret a b).
  { induction q; intros a b; [reflexivity|]. cbn [forN]. set (s := forN q _ ret) in *. unfold fmupd at 1. rewrite HI, IHq by lia.
    destruct (Nat.eqb_spec a q), (Nat.eqb_spec b q); subst; cbn [andb orb];
      repeat match goal with |- context [Nat.ltb ?x ?y] => destruct (Nat.ltb_spec x y) end; cbn [andb orb]; try lia; auto; f_equal; lia. }
  rewrite !K, !(proj2 (Nat.ltb_lt _ _)) by lia. cbn [andb].
  split; [|f_equal; lia]. now replace (Nat.max i j) with i by lia; replace (Nat.min i j) with j by lia.
Qed.

Lemma finvL_entry n L : let '(det, N) := finvL prec emax Hp He n L in
  det = fdetL prec emax Hp He n L /\
  forall i, (i < n)%nat -> N i i = div one (L i i) /\
    forall j, (j < i)%nat -> N i j = mul (Bopp (N i i)) (forN (i - S j) (fun k x => add x (mul (L i (S j + k)%nat) (N (S j + k)%nat j))) (mul (L i j) (N j j))).
Proof.
  unfold finvL. set (body := fun (i : nat) '(det, L) => _).
  pose (P := fun i (s : float * FMat) => let '(det, N) := s in
    det = fdetL prec emax Hp He i L /\
    (forall a, (a < i)%nat -> N a a = div one (L a a) /\
       forall j, (j < a)%nat -> N a j = mul (Bopp (N a a)) (forN (a - S j) (fun k x => add x (mul (L a (S j + k)%nat) (N (S j + k)%nat j))) (mul (L a j) (N j j)))) /\
    (forall a b, (i <= a \/ a < b)%nat -> N a b = L a b)).
  assert (H : P n (forN n body (one, L))).
  2: { unfold P in H. destruct (forN n body (one, L)) as (det, N). destruct H as (H1 & H2 & _). auto. }
  apply forN_inv.
  - split; [reflexivity|]. split; [intros; lia|reflexivity].
  - intros i [det N] Hi (Hd & H1 & H2). unfold body.
    set (N0 := mupd N i i (div one (N i i))).
    assert (E : forall p, (p <= i)%nat ->
      let N' := forN p (fun j L => let x := forR (S j) i (fun k x => add x (mul (L i k) (L k j))) (mul (L i j) (L j j)) in mupd L i j (mul (Bopp (L i i)) x)) N0 in
      (forall a b, a <> i \/ p <= b -> N' a b = N0 a b)%nat /\
      (forall j, (j < p)%nat -> N' i j = mul (Bopp (div one (L i i))) (forN (i - S j) (fun k x => add x (mul (L i (S j + k)%nat) (N (S j + k)%nat j))) (mul (L i j) (N j j))))).
    { induction p; intro Hpi; cbn [forN]; cbv zeta.
      - split; [reflexivity|intros; lia].
      - destruct IHp as [F1 F2]; [lia|]. cbv zeta in F1, F2. set (N' := forN p _ N0) in *.
        split; [intros; rewrite mupd_other by lia; apply F1; lia|].
        intros j Hj. destruct (Nat.eq_dec j p) as [->|Np].
        + rewrite mupd_same. unfold forR.
          assert (Eii : N' i i = div one (L i i)) by (rewrite F1 by lia; unfold N0; rewrite mupd_same, H2 by lia; reflexivity).
          assert (Ei : forall k, (p <= k < i)%nat -> N' i k = L i k) by (intros k Hk; rewrite F1 by lia; unfold N0; rewrite mupd_other by lia; apply H2; lia).
          assert (Ek : forall k l, (k < i)%nat -> N' k l = N k l) by (intros k l Hk; rewrite F1 by lia; unfold N0; rewrite mupd_other by lia; reflexivity).
          rewrite Eii, Ei, Ek by lia. f_equal. apply forN_ext. intros k s Hk. now rewrite Ei, Ek by lia.
        + rewrite mupd_other by lia. apply F2. lia. }
    destruct (E i (le_n i)) as [E1 E2]. cbv zeta in E1, E2. set (N' := forN i _ N0) in *.
    assert (HN : forall a b, (a <> i \/ i < b)%nat -> N' a b = N a b).
    { intros a b Hab. rewrite E1 by lia. unfold N0. now rewrite mupd_other by lia. }
    assert (HD : N' i i = div one (L i i)) by (rewrite E1 by lia; unfold N0; rewrite mupd_same, H2 by lia; reflexivity).
    split; [|split].
    + unfold fdetL. cbn [forN]. rewrite Hd, H2 by lia. reflexivity.
    + intros a Ha. destruct (Nat.eq_dec a i) as [->|Na].
      * split; [exact HD|]. intros j Hj. rewrite HD, E2 by exact Hj. f_equal. rewrite HN by lia. apply forN_ext. intros k s Hk. now rewrite HN by lia.
      * rewrite HN by lia. destruct (H1 a ltac:(lia)) as (D & F). split; [exact D|]. intros j Hj. rewrite !HN by lia. rewrite F by exact Hj. f_equal.
        apply forN_ext. intros k s Hk. now rewrite HN by lia.
    + intros a b Hab. rewrite HN by lia. apply H2. lia.
Qed.
End FM3.
