(** The integral over the reference simplex in Kuhn coordinates: moments, integrating out a
    coordinate in any position, symmetry. *)
From Coq Require Import NArith ZArith PeanoNat Bool List Permutation Reals Factorial Lia Lra FunctionalExtensionality.
From Coquelicot Require Import Coquelicot.
From Verif Require Import M_RefGeo M_Quadrature S_Topo S_RefGeo S_Quad1D S_QuadND P_RSum P_RefGeo P_RefGeo4 P_RefVol P_QuadProd S_Refine P_Refine2 P_Refine4 P_KuhnInt.
Import ListNotations.
Local Open Scope R_scope.

Fixpoint simT (d : nat) : Topo := match d with O => Pt | S d => Pyr (simT d) end.
Lemma tdim_simT : forall d, tdim (simT d) = d. Proof. induction d; cbn; auto. Qed.
Definition SI (d : nat) (f : Vec -> R) : R := IintW 0 (simT d) f.
Lemma SI_ext : forall d f g, (forall x, f x = g x) -> SI d f = SI d g.
Proof. intros. apply IintW_ext. assumption. Qed.
Lemma SI_peval : forall d P, SI d (peval d P) = pmom (momW 0 (simT d)) P.
Proof. intros d P. unfold SI. rewrite <- (tdim_simT d) at 2. apply IintW_peval. Qed.
Lemma pmom_app : forall m P Q, pmom m (P ++ Q) = pmom m P + pmom m Q.
Proof. intros m P Q. induction P as [|[c e] P IH]; cbn [app pmom]; [ring|]. rewrite IH. ring. Qed.
Lemma SI_plus : forall d f g, polyf d f -> polyf d g -> SI d (fun x => f x + g x) = SI d f + SI d g.
Proof.
  intros d f g (P & E) (Q & E'). rewrite (SI_ext d _ (peval d (P ++ Q))) by (intros; rewrite peval_app, E, E'; reflexivity).
  rewrite (SI_ext d f _ E), (SI_ext d g _ E'), !SI_peval. apply pmom_app.
Qed.
Lemma SI_scal : forall d f c, polyf d f -> SI d (fun x => c * f x) = c * SI d f.
Proof.
  intros d f c (P & E). rewrite (SI_ext d f _ E), SI_peval, pmom_scal, <- SI_peval. apply SI_ext. intros x. rewrite E. clear E.
  induction P as [|[c' e'] P IH]; cbn [map peval fst snd]; [ring|]. rewrite <- IH. ring.
Qed.
Lemma SI_minus : forall d f g, polyf d f -> polyf d g -> SI d (fun x => f x - g x) = SI d f - SI d g.
Proof.
  intros d f g H H'. rewrite (SI_ext d _ (fun x => f x + -1 * g x)) by (intros; ring).
  rewrite SI_plus, SI_scal; auto; [ring|]. apply pf_scal. assumption.
Qed.
Lemma SI_step : forall d f, SI (S d) f = RInt (fun t => (1 - t) ^ d * SI d (fun y => f (fun k => if Nat.eqb k d then t else (1 - t) * y k))) 0 1.
Proof.
  intros d f. unfold SI. cbn [simT IintW]. apply RInt_ext. intros t _. rewrite omega_0, tdim_simT, Rmult_1_l. reflexivity.
Qed.

(** Kuhn coordinates of the whole simplex *)
Definition Yc (d : nat) (x : Vec) : Vec := fun i => rsum (d - i) (fun m => x (i + m)%nat).
Definition KI (d : nat) (h : Vec -> R) : R := SI d (fun x => h (Yc d x)).
Lemma pf_Yc : forall d i, (i < d)%nat -> polyf d (fun x => Yc d x i).
Proof. intros d i Hi. unfold Yc. apply (pf_rsum d (d - i) (fun m x => x (i + m)%nat)). intros m Hm. apply pf_coord. lia. Qed.
Lemma pf_KI : forall d h, polyf d h -> polyf d (fun x => h (Yc d x)).
Proof. intros d h H. apply (pf_comp d d h (Yc d) H). intros. apply pf_Yc. assumption. Qed.
Lemma KI_ext : forall d f g, (forall x, f x = g x) -> KI d f = KI d g.
Proof. intros. apply SI_ext. auto. Qed.
Lemma KI_plus : forall d f g, polyf d f -> polyf d g -> KI d (fun x => f x + g x) = KI d f + KI d g.
Proof. intros. apply (SI_plus d (fun x => f (Yc d x)) (fun x => g (Yc d x))); apply pf_KI; assumption. Qed.
Lemma KI_minus : forall d f g, polyf d f -> polyf d g -> KI d (fun x => f x - g x) = KI d f - KI d g.
Proof. intros. apply (SI_minus d (fun x => f (Yc d x)) (fun x => g (Yc d x))); apply pf_KI; assumption. Qed.
Lemma KI_scal : forall d f c, polyf d f -> KI d (fun x => c * f x) = c * KI d f.
Proof. intros. apply (SI_scal d (fun x => f (Yc d x))); apply pf_KI; assumption. Qed.

(** ** moments in the variables 1 - y *)
Fixpoint psum1 (k : nat) (a : nat -> nat) : nat := match k with O => O | S k => (psum1 k a + (a k + 1))%nat end.
Fixpoint Mom (d : nat) (a : nat -> nat) : R := match d with O => 1 | S d => Mom d a * / INR (psum1 (S d) a) end.
Lemma psum1_degree : forall k a, psum1 k a = (k + degree k a)%nat.
Proof. induction k as [|k IH]; intros; cbn; [reflexivity|]. rewrite IH. lia. Qed.
Lemma psum1_pos : forall k a, (0 < psum1 (S k) a)%nat.
Proof. intros. cbn. lia. Qed.
Definition comp1 (y : Vec) : Vec := fun i => 1 - y i.
Lemma pf_comp1 : forall d a, polyf d (fun y => monomial d a (comp1 y)).
Proof.
  intros. apply (pf_monomial d d a comp1). intros i Hi. unfold comp1.
  apply (pf_minus d (fun _ => 1) (fun x => x i)); [apply pf_const|apply pf_coord; assumption].
Qed.
Lemma KI_mom : forall d a, KI d (fun y => monomial d a (comp1 y)) = Mom d a.
Proof.
  induction d as [|d IH]; intros a; [reflexivity|]. unfold KI. rewrite SI_step. cbn [Mom].
  rewrite (RInt_ext _ (fun t => Mom d a * ((1 - t) ^ (d + degree (S d) a) * t ^ 0))).
  - rewrite RInt_cBeta, Beta_0. rewrite psum1_degree. do 2 f_equal.
  - intros t _. rewrite <- IH.
    rewrite (SI_ext d _ (fun x => (1 - t) ^ degree (S d) a * monomial d a (comp1 (Yc d x)))).
    + rewrite SI_scal by (apply (pf_KI d (fun y => monomial d a (comp1 y))); apply pf_comp1). unfold KI. rewrite pow_add. cbn [pow]. match goal with |- @eq _ ?a ?b => change (@eq R a b) end. ring.
    + intros y. cbn [monomial degree].
      rewrite (monomial_ext d a (comp1 (Yc (S d) (fun k => if Nat.eqb k d then t else (1 - t) * y k))) (fun k => (1 - t) * comp1 (Yc d y) k)).
      * rewrite monomial_scale, pow_add.
        assert (C : comp1 (Yc (S d) (fun k => if Nat.eqb k d then t else (1 - t) * y k)) d = 1 - t).
        { unfold comp1, Yc. replace (S d - d)%nat with 1%nat by lia. cbn [rsum]. rewrite Nat.add_0_r, Nat.eqb_refl. ring. }
        rewrite C. ring.
      * intros k Hk. unfold comp1, Yc. replace (S d - k)%nat with (S (d - k)) by lia. rewrite rsum_S.
        replace (k + (d - k))%nat with d by lia. rewrite Nat.eqb_refl.
        rewrite (rsum_ext (d - k) _ (fun m => (1 - t) * y (k + m)%nat)).
        -- rewrite rsum_scal. ring.
        -- intros m Hm. destruct (Nat.eqb_spec (k + m) d); [lia|reflexivity].
Qed.
(** exponents with an additional one in position j, or increased there *)
Definition insN (j b : nat) (a : nat -> nat) (i : nat) : nat := if Nat.ltb i j then a i else if Nat.eqb i j then b else a (i - 1)%nat.
Definition incN (j b : nat) (a : nat -> nat) (i : nat) : nat := if Nat.eqb i j then (a i + b)%nat else a i.
Lemma psum1_ins : forall j b a k, psum1 k (insN j b a) = if Nat.leb k j then psum1 k a else (psum1 (k - 1) a + (b + 1))%nat.
Proof.
  intros j b a. induction k as [|k IH]; [reflexivity|]. cbn [psum1]. rewrite IH. unfold insN.
  destruct (Nat.leb_spec k j), (Nat.leb_spec (S k) j), (Nat.ltb_spec k j), (Nat.eqb_spec k j); try lia.
  - subst. cbn [Nat.sub]. rewrite Nat.sub_0_r. reflexivity.
  - destruct k as [|k]; [lia|]. cbn [Nat.sub psum1]. rewrite Nat.sub_0_r. lia.
Qed.
Lemma psum1_inc : forall j b a k, psum1 k (incN j b a) = if Nat.leb k j then psum1 k a else (psum1 k a + b)%nat.
Proof.
  intros j b a. induction k as [|k IH]; [reflexivity|]. cbn [psum1]. rewrite IH. unfold incN.
  destruct (Nat.leb_spec k j), (Nat.leb_spec (S k) j), (Nat.eqb_spec k j); lia.
Qed.
Lemma Mom_ext : forall d a b, (forall i, (i < d)%nat -> a i = b i) -> Mom d a = Mom d b.
Proof.
  intros d a b H. assert (P : forall k, (k <= d)%nat -> psum1 k a = psum1 k b).
  { induction k as [|k IH]; intros L; cbn; [reflexivity|]. rewrite IH, H by lia. reflexivity. }
  assert (G : forall k, (k <= d)%nat -> Mom k a = Mom k b).
  { induction k as [|k IH]; intros L; [reflexivity|]. cbn [Mom]. rewrite IH, P by lia. reflexivity. }
  apply G. lia.
Qed.
Lemma Mom_inc_ge : forall d j b a, (d <= j)%nat -> Mom d (incN j b a) = Mom d a.
Proof. intros. apply Mom_ext. intros i Hi. unfold incN. destruct (Nat.eqb_spec i j); [lia|reflexivity]. Qed.
(** the algebraic form of integrating out the variable in position j *)
Lemma Mom_insert : forall d j b a, (j <= d)%nat ->
  INR (b + 1) * Mom (S d) (insN j b a) = Mom d (incN j (b + 1) a) - (if Nat.eqb j 0 then 0 else Mom d (incN (j - 1) (b + 1) a)).
Proof.
  intros d j b a Hj. induction d as [|d IH].
  - assert (j = 0)%nat by lia. subst. cbn. rewrite ?Rminus_0_r. field. apply not_0_INR. lia.
  - destruct (Nat.eq_dec j (S d)) as [->|N].
    + (* the last position *)
      cbn [Nat.eqb]. replace (S d - 1)%nat with d by lia. rewrite (Mom_inc_ge (S d) (S d)) by lia.
      change (Mom (S (S d)) (insN (S d) b a)) with (Mom d (insN (S d) b a) * / INR (psum1 (S d) (insN (S d) b a)) * / INR (psum1 (S (S d)) (insN (S d) b a))).
      change (Mom (S d) a) with (Mom d a * / INR (psum1 (S d) a)).
      change (Mom (S d) (incN d (b + 1) a)) with (Mom d (incN d (b + 1) a) * / INR (psum1 (S d) (incN d (b + 1) a))).
      rewrite (Mom_inc_ge d d) by lia. rewrite !psum1_ins, psum1_inc.
      rewrite (proj2 (Nat.leb_le (S d) (S d))) by lia. rewrite (proj2 (Nat.leb_gt (S (S d)) (S d))) by lia. rewrite (proj2 (Nat.leb_gt (S d) d)) by lia.
      replace (S (S d) - 1)%nat with (S d) by lia.
      rewrite (Mom_ext d (insN (S d) b a) a) by (intros i Hi; unfold insN; destruct (Nat.ltb_spec i (S d)); [reflexivity|lia]).
      assert (P := psum1_pos d a). rewrite !(plus_INR (psum1 (S d) a) (b + 1)). apply lt_INR in P. cbn [INR] in P. set (s := INR (psum1 (S d) a)) in *.
      assert (0 < INR (b + 1)) by (apply lt_0_INR; lia). field. lra.
    + specialize (IH ltac:(lia)).
      change (Mom (S (S d)) (insN j b a)) with (Mom (S d) (insN j b a) * / INR (psum1 (S (S d)) (insN j b a))).
      change (Mom (S d) (incN j (b + 1) a)) with (Mom d (incN j (b + 1) a) * / INR (psum1 (S d) (incN j (b + 1) a))).
      change (Mom (S d) (incN (j - 1) (b + 1) a)) with (Mom d (incN (j - 1) (b + 1) a) * / INR (psum1 (S d) (incN (j - 1) (b + 1) a))).
      rewrite psum1_ins, !psum1_inc. rewrite (proj2 (Nat.leb_gt (S (S d)) j)) by lia. rewrite (proj2 (Nat.leb_gt (S d) j)) by lia. rewrite (proj2 (Nat.leb_gt (S d) (j - 1))) by lia.
      replace (S (S d) - 1)%nat with (S d) by lia. rewrite <- Rmult_assoc, IH. destruct (Nat.eqb j 0); ring.
Qed.

(** ** integrating out the variable in position j *)
Definition put (d : nat) (x : Vec) (u : R) : Vec := fun i => if Nat.eqb i d then u else x i.
Definition del (j : nat) (x : Vec) : Vec := fun i => x (if Nat.ltb i j then i else S i).
(** the neighbours: 1, x 0, .. x (d-1), 0 *)
Definition bd (d : nat) (x : Vec) (j : nat) : R := if Nat.eqb j 0 then 1 else if Nat.leb j d then x (j - 1)%nat else 0.
Lemma pf_bd : forall d j, polyf d (fun x => bd d x j).
Proof.
  intros d j. unfold bd. destruct (Nat.eqb_spec j 0); [apply pf_const|]. destruct (Nat.leb_spec j d); [apply pf_coord; lia|apply pf_const].
Qed.
Lemma pf_put : forall d f g (G : Vec -> Vec), polyf (S d) f -> (forall i, (i < d)%nat -> polyf d (fun x => G x i)) -> polyf d g -> polyf d (fun x => f (put d (G x) (g x))).
Proof.
  intros d f g G Hf HG Hg. apply (pf_comp d (S d) f (fun x => put d (G x) (g x)) Hf). intros i Hi. unfold put.
  destruct (Nat.eqb_spec i d); [assumption|]. apply HG. lia.
Qed.
Lemma pf_put1 : forall d f g, polyf (S d) f -> polyf d g -> polyf d (fun x => f (put d x (g x))).
Proof. intros d f g Hf Hg. apply (pf_put d f g (fun x => x)); auto. intros. apply pf_coord. assumption. Qed.
Lemma pf_del : forall d j f, (j <= d)%nat -> polyf (S d) f -> polyf (S d) (fun x => f (put d (del j x) (x j))).
Proof.
  intros d j f Hj Hf. apply (pf_comp (S d) (S d) f (fun x => put d (del j x) (x j)) Hf). intros i Hi. unfold put, del.
  destruct (Nat.eqb_spec i d); [apply pf_coord; lia|]. destruct (Nat.ltb i j); apply pf_coord; lia.
Qed.
Lemma monomial_exp_ext : forall d a b x, (forall i, (i < d)%nat -> a i = b i) -> monomial d a x = monomial d b x.
Proof. induction d as [|d IH]; intros a b x H; cbn; [reflexivity|]. rewrite (IH a b), H by (intros; try apply H; lia). reflexivity. Qed.
Lemma monomial_del : forall d j b a x, (j <= d)%nat -> monomial d a (del j x) * x j ^ b = monomial (S d) (insN j b a) x.
Proof.
  induction d as [|d IH]; intros j b a x Hj.
  - assert (j = 0)%nat by lia. subst. cbn. ring.
  - destruct (Nat.eq_dec j (S d)) as [->|N].
    + change (monomial (S (S d)) (insN (S d) b a) x) with (monomial (S d) (insN (S d) b a) x * x (S d) ^ insN (S d) b a (S d)).
      replace (insN (S d) b a (S d)) with b by (unfold insN; rewrite Nat.ltb_irrefl, Nat.eqb_refl; reflexivity). f_equal.
      rewrite (monomial_ext (S d) a (del (S d) x) x) by (intros i Hi; unfold del; destruct (Nat.ltb_spec i (S d)); [reflexivity|lia]).
      apply monomial_exp_ext. intros i Hi. unfold insN. destruct (Nat.ltb_spec i (S d)); [reflexivity|lia].
    + change (monomial (S (S d)) (insN j b a) x) with (monomial (S d) (insN j b a) x * x (S d) ^ insN j b a (S d)).
      rewrite <- IH by lia. cbn [monomial].
      replace (insN j b a (S d)) with (a d) by (unfold insN; destruct (Nat.ltb_spec (S d) j), (Nat.eqb_spec (S d) j); try lia; f_equal; lia).
      replace (del j x d) with (x (S d)) by (unfold del; destruct (Nat.ltb_spec d j); [lia|reflexivity]). ring.
Qed.
Lemma monomial_inc : forall d j b a x, monomial d (incN j b a) x = if Nat.ltb j d then monomial d a x * x j ^ b else monomial d a x.
Proof.
  induction d as [|d IH]; intros j b a x; [reflexivity|]. cbn [monomial]. rewrite IH. unfold incN.
  destruct (Nat.eqb_spec d j) as [->|N].
  - rewrite Nat.ltb_irrefl, (proj2 (Nat.ltb_lt j (S j))) by lia. rewrite pow_add. ring.
  - destruct (Nat.ltb_spec j d), (Nat.ltb_spec j (S d)); try lia; ring.
Qed.
Lemma monomial_put : forall d e x u, monomial (S d) e (put d x u) = monomial d e x * u ^ e d.
Proof. intros. unfold put. apply mono_split. Qed.

(** polynomials in the variables 1 - y *)
Lemma pf_basis : forall d f, polyf d f -> exists P, forall x, f x = peval d P (comp1 x).
Proof.
  intros d f H. assert (H' : polyf d (fun x => f (comp1 x))).
  { apply (pf_comp d d f comp1 H). intros i Hi. unfold comp1. apply (pf_minus d (fun _ => 1) (fun x => x i)); [apply pf_const|apply pf_coord; assumption]. }
  destruct H' as (P & E). exists P. intros x. rewrite <- E. f_equal. extensionality i. unfold comp1. ring.
Qed.
(** the antiderivative in the last variable *)
Fixpoint anti (d : nat) (P : MPoly) (x : Vec) : R :=
  match P with [] => 0 | (c, e) :: P => - (c / INR (e d + 1)) * (monomial d e (comp1 x) * (1 - x d) ^ (e d + 1)) + anti d P x end.
Lemma pf_anti : forall d P, polyf (S d) (anti d P).
Proof.
  intros d P. induction P as [|[c e] P IH]; cbn [anti]; [apply pf_const|].
  apply (pf_plus (S d) (fun x => - (c / INR (e d + 1)) * (monomial d e (comp1 x) * (1 - x d) ^ (e d + 1))) (anti d P)); [|assumption].
  apply (pf_scal (S d) (fun x => monomial d e (comp1 x) * (1 - x d) ^ (e d + 1))).
  apply (pf_mult (S d) (fun x => monomial d e (comp1 x)) (fun x => (1 - x d) ^ (e d + 1))).
  - apply (pf_monomial (S d) d e comp1). intros i Hi. unfold comp1. apply (pf_minus (S d) (fun _ => 1) (fun x => x i)); [apply pf_const|apply pf_coord; lia].
  - apply (pf_pow (S d) (fun x => 1 - x d)). apply (pf_minus (S d) (fun _ => 1) (fun x => x d)); [apply pf_const|apply pf_coord; lia].
Qed.
Definition antider (d : nat) (H A : Vec -> R) : Prop := forall x u, is_derive (fun u => A (put d x u)) u (H (put d x u)).
Lemma antider_anti : forall d P H, (forall x, H x = peval (S d) P (comp1 x)) -> antider d H (anti d P).
Proof.
  intros d P H E x u. rewrite E. clear E H. induction P as [|[c e] P IH]; cbn [anti peval].
  - apply (is_derive_const (K := R_AbsRing) (V := R_NormedModule)).
  - apply (is_derive_plus (K := R_AbsRing) (V := R_NormedModule) (fun u => - (c / INR (e d + 1)) * (monomial d e (comp1 (put d x u)) * (1 - put d x u d) ^ (e d + 1))) (fun u => anti d P (put d x u))); [|exact IH].
    assert (Q : forall v, monomial d e (comp1 (put d x v)) = monomial d e (comp1 x)).
    { intros v. apply monomial_ext. intros k Hk. unfold comp1, put. destruct (Nat.eqb_spec k d); [lia|reflexivity]. }
    apply (is_derive_ext (fun v => - (c / INR (e d + 1)) * (monomial d e (comp1 x) * (1 - v) ^ (e d + 1)))).
    { intros v. rewrite Q. unfold put. rewrite Nat.eqb_refl. reflexivity. }
    assert (Q2 : monomial (S d) e (comp1 (put d x u)) = monomial d e (comp1 x) * (1 - u) ^ e d).
    { cbn [monomial]. rewrite Q. unfold comp1, put. rewrite Nat.eqb_refl. reflexivity. }
    rewrite Q2. auto_derive; [auto|]. replace (pred (e d + 1)) with (e d) by lia.
    assert (INR (e d + 1) <> 0) by (apply not_0_INR; lia). change (1 + - u) with (1 - u); set (w := (1 - u) ^ e d); set (i := INR (e d + 1)) in *; match goal with |- @eq _ ?a ?b => change (@eq R a b) end; field; assumption.
Qed.
Lemma antider_diff : forall d H A B x u v, antider d H A -> antider d H B -> A (put d x u) - A (put d x v) = B (put d x u) - B (put d x v).
Proof.
  intros d H A B x u v HA HB.
  assert (D : forall t, is_derive (fun t => A (put d x t) - B (put d x t)) t 0).
  { intros t. replace 0 with (H (put d x t) - H (put d x t)) by ring.
    apply (is_derive_minus (K := R_AbsRing) (V := R_NormedModule) (fun t => A (put d x t)) (fun t => B (put d x t))); auto. }
  assert (Q : (fun t => A (put d x t) - B (put d x t)) u = (fun t => A (put d x t) - B (put d x t)) v).
  { destruct (MVT_gen (fun t => A (put d x t) - B (put d x t)) u v (fun _ => 0)) as (c & _ & C).
    - intros t _. apply D.
    - intros t _. apply derivable_continuous_pt. exists 0. apply is_derive_Reals, D.
    - lra. }
  cbv beta in Q. lra.
Qed.
(** the main step for one polynomial *)
Lemma KI_insert0 : forall d j P, (j <= d)%nat ->
  KI (S d) (fun x => peval (S d) P (comp1 (put d (del j x) (x j)))) = KI d (fun x => anti d P (put d x (bd d x j)) - anti d P (put d x (bd d x (S j)))).
Proof.
  intros d j P Hj.
  assert (pA : forall P i, polyf d (fun x => anti d P (put d x (bd d x i)))) by (intros; apply pf_put1; [apply pf_anti|apply pf_bd]).
  induction P as [|[c e] P IH]; cbn [peval anti].
  - rewrite (KI_ext d _ (fun _ => 0)) by (intros; ring).
    rewrite (KI_ext (S d) _ (fun _ => 0 * 1)) by (intros; ring). rewrite (KI_ext d _ (fun _ => 0 * 1)) by (intros; ring).
    rewrite !(KI_scal _ (fun _ => 1)) by apply pf_const. ring.
  - set (N := fun x => (monomial d e (comp1 x) * (1 - x d) ^ (e d + 1)) : R).
    assert (pN : forall i, polyf d (fun x => N (put d x (bd d x i)))).
    { intros i. apply pf_put1; [|apply pf_bd]. unfold N. apply (pf_mult (S d) (fun x => monomial d e (comp1 x)) (fun x => (1 - x d) ^ (e d + 1))).
      - apply (pf_monomial (S d) d e comp1). intros k Hk. unfold comp1. apply (pf_minus (S d) (fun _ => 1) (fun x => x k)); [apply pf_const|apply pf_coord; lia].
      - apply (pf_pow (S d) (fun x => 1 - x d)). apply (pf_minus (S d) (fun _ => 1) (fun x => x d)); [apply pf_const|apply pf_coord; lia]. }
    rewrite (KI_ext d _ (fun x => (c / INR (e d + 1)) * (N (put d x (bd d x (S j))) - N (put d x (bd d x j))) + (anti d P (put d x (bd d x j)) - anti d P (put d x (bd d x (S j)))))) by (intros; unfold N; ring).
    rewrite (KI_plus d (fun x => (c / INR (e d + 1)) * (N (put d x (bd d x (S j))) - N (put d x (bd d x j)))) (fun x => anti d P (put d x (bd d x j)) - anti d P (put d x (bd d x (S j)))));
      [|apply (pf_scal d (fun x => N (put d x (bd d x (S j))) - N (put d x (bd d x j)))); apply (pf_minus d (fun x => N (put d x (bd d x (S j))))); apply pN|apply (pf_minus d (fun x => anti d P (put d x (bd d x j)))); apply pA].
    rewrite (KI_scal d (fun x => N (put d x (bd d x (S j))) - N (put d x (bd d x j)))) by (apply (pf_minus d (fun x => N (put d x (bd d x (S j))))); apply pN).
    rewrite (KI_minus d (fun x => N (put d x (bd d x (S j)))) (fun x => N (put d x (bd d x j)))) by apply pN.
    assert (EM : forall i, (i <= S d)%nat -> KI d (fun x => N (put d x (bd d x i))) = if Nat.eqb i 0 then 0 else Mom d (incN (i - 1) (e d + 1) e)).
    { intros i Hi. assert (EN : forall x v, N (put d x v) = monomial d e (comp1 x) * (1 - v) ^ (e d + 1)).
      { intros x v. unfold N. f_equal; [|unfold put; rewrite Nat.eqb_refl; reflexivity].
        apply monomial_ext. intros k Hk. unfold comp1, put. destruct (Nat.eqb_spec k d); [lia|reflexivity]. }
      rewrite (KI_ext d _ (fun x => monomial d e (comp1 x) * (1 - bd d x i) ^ (e d + 1))) by (intros; apply EN).
      destruct (Nat.eqb_spec i 0) as [->|Ni].
      - unfold bd. cbn [Nat.eqb]. rewrite (KI_ext d _ (fun x => 0 * 1)).
        + rewrite (KI_scal d (fun _ => 1)) by apply pf_const. ring.
        + intros x. rewrite Rminus_diag_eq by reflexivity. rewrite pow_i by lia. ring.
      - rewrite <- KI_mom. apply KI_ext. intros x. rewrite monomial_inc. unfold bd.
        destruct (Nat.eqb_spec i 0); [lia|]. destruct (Nat.leb_spec i d), (Nat.ltb_spec (i - 1) d); try lia.
        + reflexivity.
        + rewrite Rminus_0_r, pow1. ring. }
    rewrite !EM by lia.
    rewrite <- IH. clear IH EM pN pA N.
    assert (pT : polyf (S d) (fun x => monomial (S d) e (comp1 (put d (del j x) (x j))))).
    { apply (pf_del d j (fun x => monomial (S d) e (comp1 x)) Hj). apply pf_comp1. }
    rewrite KI_plus; [|apply (pf_scal (S d) _ c pT)|].
    2:{ apply (pf_del d j (fun x => peval (S d) P (comp1 x)) Hj). apply (pf_comp (S d) (S d) (peval (S d) P) comp1); [exists P; reflexivity|].
        intros k Hk. unfold comp1. apply (pf_minus (S d) (fun _ => 1) (fun x => x k)); [apply pf_const|apply pf_coord; assumption]. }
    f_equal. rewrite (KI_scal (S d) _ c pT).
    rewrite (KI_ext (S d) _ (fun x => monomial (S d) (insN j (e d) e) (comp1 x))).
    + rewrite KI_mom. pose proof (Mom_insert d j (e d) e Hj) as Q. cbn [Nat.eqb]. replace (S j - 1)%nat with j by lia. rewrite <- Q.
      assert (INR (e d + 1) <> 0) by (apply not_0_INR; lia). field. assumption.
    + intros x. rewrite <- monomial_del by assumption. cbn [monomial]. f_equal.
      * apply monomial_ext. intros k Hk. unfold comp1, put, del. destruct (Nat.eqb_spec k d); [lia|reflexivity].
      * unfold comp1, put. rewrite Nat.eqb_refl. reflexivity.
Qed.
Lemma KI_insert : forall d j H A, (j <= d)%nat -> polyf (S d) H -> antider d H A ->
  KI (S d) (fun x => H (put d (del j x) (x j))) = KI d (fun x => A (put d x (bd d x j)) - A (put d x (bd d x (S j)))).
Proof.
  intros d j H A Hj HH HA. destruct (pf_basis (S d) H HH) as (P & E).
  rewrite (KI_ext (S d) _ (fun x => peval (S d) P (comp1 (put d (del j x) (x j))))) by (intros; apply E).
  rewrite KI_insert0 by assumption. apply KI_ext. intros x. apply (antider_diff d H); [apply antider_anti; assumption|assumption].
Qed.
Lemma antider_exists : forall d H, polyf (S d) H -> exists A, polyf (S d) A /\ antider d H A.
Proof. intros d H HH. destruct (pf_basis (S d) H HH) as (P & E). exists (anti d P). split; [apply pf_anti|apply antider_anti; assumption]. Qed.

(** ** symmetry *)
Lemma momW_simT : forall d e, momW 0 (simT d) e * INR (fact (d + degree d e)) = fold_right Rmult 1 (map (fun i => INR (fact (e i))) (seq 0 d)).
Proof.
  induction d as [|d IH]; intros e; [cbn; ring|]. cbn [simT momW]. rewrite tdim_simT, bmom_Beta, Nat.add_0_r, Beta_val. cbn [pow degree].
  rewrite seq_S, map_app, fold_right_app. cbn [Nat.add map fold_right].
  assert (G : forall l b, fold_right Rmult b l = fold_right Rmult 1 l * b) by (induction l as [|a l IHl]; intros b; cbn; [ring|rewrite IHl; ring]).
  rewrite G, <- IH. replace (S (d + (degree d e + e d))) with (S (d + degree d e + e d)) by lia.
  assert (INR (fact (S (d + degree d e + e d))) <> 0) by (apply not_0_INR, fact_neq_0). field. assumption.
Qed.
Lemma seq_perm : forall d p, isPerm d p -> Permutation (map p (seq 0 d)) (seq 0 d).
Proof. intros. apply perm_Permutation. assumption. Qed.
Lemma monomial_prod : forall d e x, monomial d e x = fold_right Rmult 1 (map (fun i => x i ^ e i) (seq 0 d)).
Proof.
  induction d as [|d IH]; intros e x; [reflexivity|]. cbn [monomial]. rewrite seq_S, map_app, fold_right_app, IH. cbn [Nat.add map fold_right].
  assert (G : forall l b, fold_right Rmult b l = fold_right Rmult 1 l * b) by (induction l as [|a l IHl]; intros b; cbn; [ring|rewrite IHl; ring]).
  rewrite (G _ (_ * 1)). ring.
Qed.
Lemma degree_sum : forall d e, degree d e = fold_right Nat.add 0%nat (map e (seq 0 d)).
Proof.
  induction d as [|d IH]; intros e; [reflexivity|]. cbn [degree]. rewrite seq_S, map_app, fold_right_app, IH. cbn [Nat.add map fold_right].
  assert (G : forall l b, fold_right Nat.add b l = (fold_right Nat.add 0%nat l + b)%nat) by (induction l as [|a l IHl]; intros b; cbn; [reflexivity|rewrite IHl; lia]).
  rewrite (G _ (_ + 0)%nat). lia.
Qed.
Lemma Rprod_perm : forall l l', Permutation l l' -> fold_right Rmult 1 l = fold_right Rmult 1 l'.
Proof. intros l l' H. induction H; cbn; [reflexivity|rewrite IHPermutation; reflexivity|ring|congruence]. Qed.
Lemma Nsum_perm : forall l l', Permutation l l' -> fold_right Nat.add 0%nat l = fold_right Nat.add 0%nat l'.
Proof. intros l l' H. induction H; cbn; [reflexivity|rewrite IHPermutation; reflexivity|lia|congruence]. Qed.
Lemma momW_perm : forall d q e, isPerm d q -> momW 0 (simT d) (fun i => e (q i)) = momW 0 (simT d) e.
Proof.
  intros d q e H. apply (Rmult_eq_reg_r (INR (fact (d + degree d e)))); [|apply not_0_INR, fact_neq_0].
  replace (degree d e) with (degree d (fun i => e (q i))) at 1.
  - rewrite !momW_simT. rewrite <- (map_map q (fun i => INR (fact (e i)))). apply Rprod_perm, Permutation_map, seq_perm. assumption.
  - rewrite !degree_sum. rewrite <- (map_map q e). apply Nsum_perm, Permutation_map, seq_perm. assumption.
Qed.
Lemma SI_perm : forall d p q f, isPerm d p -> isPerm d q -> (forall i, (i < d)%nat -> p (q i) = i) -> polyf d f ->
  SI d (fun x => f (fun i => x (p i))) = SI d f.
Proof.
  intros d p q f Hp Hq PQ (P & E). rewrite (SI_ext d f _ E), SI_peval.
  rewrite (SI_ext d _ (peval d (map (fun ce => (fst ce, fun i => snd ce (q i))) P))).
  - rewrite SI_peval. clear E f. induction P as [|[c e] P IH]; cbn [map pmom fst snd]; [reflexivity|]. rewrite IH, momW_perm by assumption. reflexivity.
  - intros x. rewrite E. clear E f. induction P as [|[c e] P IH]; cbn [map peval fst snd]; [reflexivity|]. rewrite IH. f_equal. f_equal.
    rewrite !monomial_prod. rewrite (Rprod_perm _ (map (fun i => x (p i) ^ e i) (map q (seq 0 d)))).
    + rewrite map_map. f_equal. apply map_ext_in. intros i I. apply in_seq in I. rewrite PQ by lia. reflexivity.
    + apply Permutation_map. symmetry. apply seq_perm. assumption.
Qed.
