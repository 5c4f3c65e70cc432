(** Symmetric tridiagonal matrices: the polynomials of the three term recurrence, the
    characteristic polynomial, eigenvectors, simple eigenvalues. *)
From Coq Require Import PeanoNat Lia Reals Lra.
From Coquelicot Require Import Coquelicot.
From Verif Require Import M_RefGeo M_GolubWelsch S_Matrix P_RSum P_Det P_MxBridge S_GolubWelsch.
Local Open Scope R_scope.
Arguments detR_ext : clear implicits.
Arguments detR_tr : clear implicits.
Arguments detR_expand : clear implicits.

Fixpoint TQ (d b : nat -> R) (k : nat) (x : R) : R :=
  match k with
  | O => 1
  | S k1 => match k1 with
            | O => x - d 0%nat
            | S k2 => (x - d k1) * TQ d b k1 x - b k1 ^ 2 * TQ d b k2 x
            end
  end.
Lemma TQ_0 d b x : TQ d b 0 x = 1. Proof. reflexivity. Qed.
Lemma TQ_1 d b x : TQ d b 1 x = x - d 0%nat. Proof. reflexivity. Qed.
Lemma TQ_SS d b k x : TQ d b (S (S k)) x = (x - d (S k)) * TQ d b (S k) x - b (S k) ^ 2 * TQ d b k x. Proof. reflexivity. Qed.
Lemma nat_ind2 (P : nat -> Prop) : P O -> P 1%nat -> (forall k, P k -> P (S k) -> P (S (S k))) -> forall k, P k.
Proof. intros H0 H1 HS k. cut (P k /\ P (S k)); [tauto|]. induction k; [auto|]. split; [tauto|apply HS; tauto]. Qed.

Definition sh (f : nat -> R) : nat -> R := fun i => f (S i).
Lemma TQ_left d b x : forall k, TQ d b (S (S k)) x = (x - d 0%nat) * TQ (sh d) (sh b) (S k) x - b 1%nat ^ 2 * TQ (sh (sh d)) (sh (sh b)) k x.
Proof.
  apply (nat_ind2 (fun k => TQ d b (S (S k)) x = (x - d 0%nat) * TQ (sh d) (sh b) (S k) x - b 1%nat ^ 2 * TQ (sh (sh d)) (sh (sh b)) k x)).
  - rewrite TQ_SS. cbn [TQ]. unfold sh. ring.
  - rewrite !TQ_SS. cbn [TQ]. unfold sh. ring.
  - intros k I0 I1. rewrite TQ_SS, I1, I0, !TQ_SS. unfold sh. ring.
Qed.

(** x I - J *)
Definition triM (d b : nat -> R) (x : R) : Mat := fun i j =>
  if Nat.eqb i j then x - d i else if Nat.eqb (S i) j then - b j else if Nat.eqb i (S j) then - b i else 0.
Lemma triM_sh d b x i j : triM d b x (S i) (S j) = triM (sh d) (sh b) x i j.
Proof. unfold triM, sh. cbn [Nat.eqb]. reflexivity. Qed.
Lemma triM_far d b x i j : (S i < j \/ S j < i)%nat -> triM d b x i j = 0.
Proof.
  intros H. unfold triM. destruct (Nat.eqb_spec i j); [lia|]. destruct (Nat.eqb_spec (S i) j); [lia|].
  destruct (Nat.eqb_spec i (S j)); [lia|reflexivity].
Qed.

Lemma detR_expand2 n A : (forall j, (2 <= j)%nat -> A 0%nat j = 0) ->
  detR (S (S n)) A = A 0%nat 0%nat * detR (S n) (minor0 A 0) - A 0%nat 1%nat * detR (S n) (minor0 A 1).
Proof.
  intros H. rewrite detR_expand, rsum_shift, rsum_shift, rsum_0.
  - simpl. ring.
  - intros k _. rewrite (H (S (S k))) by lia. ring.
Qed.

Lemma detR_col0 n A : (forall i, (1 <= i)%nat -> A i 0%nat = 0) ->
  detR (S n) A = A 0%nat 0%nat * detR n (fun i j => A (S i) (S j)).
Proof.
  intros H. rewrite <- detR_tr, detR_expand, rsum_shift, rsum_0.
  - simpl. rewrite <- (detR_tr n (fun i j => A (S i) (S j))). rewrite (detR_ext n (minor0 (fun i j => A j i) 0) (fun i j => A (S j) (S i))).
    + ring.
    + intros i j _ _. unfold minor0. reflexivity.
  - intros k _. rewrite (H (S k)) by lia. ring.
Qed.

Lemma det_tri : forall n d b x, detR n (triM d b x) = TQ d b n x.
Proof.
  assert (G : forall n d b x, detR n (triM d b x) = TQ d b n x /\ detR (S n) (triM d b x) = TQ d b (S n) x); [|intros; apply G].
  induction n as [|n IH]; intros d b x.
  - split; [apply detR_0|]. rewrite detR_1. reflexivity.
  - split; [apply IH|]. rewrite detR_expand2, TQ_left by (intros; apply triM_far; lia).
    rewrite (detR_ext (S n) (minor0 (triM d b x) 0) (triM (sh d) (sh b) x)).
    + destruct (IH (sh d) (sh b) x) as [_ ->].
      rewrite (detR_col0 n (minor0 (triM d b x) 1)).
      * rewrite (detR_ext n _ (triM (sh (sh d)) (sh (sh b)) x)).
        -- destruct (IH (sh (sh d)) (sh (sh b)) x) as [-> _]. unfold minor0, triM. cbn [Nat.eqb Nat.ltb Nat.leb]. ring.
        -- intros i j _ _. unfold minor0. cbn [Nat.ltb Nat.leb]. now rewrite !triM_sh.
      * intros i Hi. unfold minor0. cbn [Nat.ltb Nat.leb]. apply triM_far. lia.
    + intros i j _ _. unfold minor0. cbn [Nat.ltb Nat.leb]. now rewrite triM_sh.
Qed.

(** the derivative and the Wronskian *)
Fixpoint dTQ (d b : nat -> R) (k : nat) (x : R) : R :=
  match k with
  | O => 0
  | S k1 => match k1 with
            | O => 1
            | S k2 => TQ d b k1 x + (x - d k1) * dTQ d b k1 x - b k1 ^ 2 * dTQ d b k2 x
            end
  end.
Lemma dTQ_SS d b k x : dTQ d b (S (S k)) x = TQ d b (S k) x + (x - d (S k)) * dTQ d b (S k) x - b (S k) ^ 2 * dTQ d b k x. Proof. reflexivity. Qed.
Lemma dTQ_derive d b x : forall k, is_derive (TQ d b k) x (dTQ d b k x).
Proof.
  apply nat_ind2.
  - cbn [TQ dTQ]. auto_derive; auto.
  - cbn [TQ dTQ]. auto_derive; auto; ring.
  - intros k I0 I1. rewrite dTQ_SS. apply (is_derive_ext (fun x => (x - d (S k)) * TQ d b (S k) x - b (S k) ^ 2 * TQ d b k x)); [reflexivity|].
    revert I0 I1. generalize (TQ d b k) (TQ d b (S k)) (dTQ d b k x) (dTQ d b (S k) x). intros f g f' g' I0 I1.
    pose proof (is_derive_unique _ _ _ I0) as U0. pose proof (is_derive_unique _ _ _ I1) as U1.
    auto_derive; [split; [eexists; exact I1|split; [eexists; exact I0|exact I]]|].
    change (fun x0 : R => f x0) with f. change (fun x0 : R => g x0) with g. rewrite U0, U1. ring.
Qed.

Lemma wronskian d b x : forall n, (forall k, (1 <= k <= n)%nat -> b k <> 0) ->
  0 < dTQ d b (S n) x * TQ d b n x - TQ d b (S n) x * dTQ d b n x.
Proof.
  induction n as [|n IH]; intros Hb.
  - cbn [TQ dTQ]. lra.
  - rewrite dTQ_SS, TQ_SS. assert (IH' := IH ltac:(intros; apply Hb; lia)). clear IH.
    assert (B : 0 < b (S n) ^ 2) by (apply pow2_gt_0, Hb; lia).
    replace (_ - _) with (TQ d b (S n) x ^ 2 + b (S n) ^ 2 * (dTQ d b (S n) x * TQ d b n x - TQ d b (S n) x * dTQ d b n x)) by ring.
    pose proof (pow2_ge_0 (TQ d b (S n) x)). pose proof (Rmult_lt_0_compat _ _ B IH'). lra.
Qed.

Lemma rprod_S n f : rprod (S n) f = rprod n f * f n. Proof. reflexivity. Qed.
Lemma rprod_ext n f g : (forall k, (k < n)%nat -> f k = g k) -> rprod n f = rprod n g.
Proof. induction n as [|n IH]; intros H; [reflexivity|]. cbn [rprod]. rewrite IH, (H n) by (intros; try apply H; lia). reflexivity. Qed.
Lemma rprod_pick n f i : (i < n)%nat -> rprod n f = f i * rprod n (fun k => if Nat.eqb k i then 1 else f k).
Proof.
  induction n as [|n IH]; intros H; [lia|]. cbn [rprod]. destruct (Nat.eqb_spec n i) as [<-|N].
  - rewrite (rprod_ext n (fun k => if Nat.eqb k n then 1 else f k) f); [ring|].
    intros k Hk. destruct (Nat.eqb_spec k n); [lia|reflexivity].
  - rewrite IH by lia. ring.
Qed.
Lemma rprod_derivable n (f : nat -> R -> R) x : (forall k, (k < n)%nat -> ex_derive (f k) x) -> ex_derive (fun y => rprod n (fun k => f k y)) x.
Proof.
  induction n as [|n IH]; intros H; cbn [rprod]; [apply ex_derive_const|].
  apply (ex_derive_mult (fun y => rprod n (fun k => f k y)) (f n)); [apply IH; intros; apply H; lia|apply H; lia].
Qed.

(** simple roots *)
Lemma roots_distinct d b n l : (forall k, (1 <= k < n)%nat -> b k <> 0) ->
  (forall x, TQ d b n x = rprod n (fun i => x - l i)) ->
  forall i j, (i < n)%nat -> (j < n)%nat -> i <> j -> l i <> l j.
Proof.
  intros Hb H i j Hi Hj N E. destruct n as [|n]; [lia|].
  set (R0 := fun x => rprod (S n) (fun k => if Nat.eqb k j then 1 else if Nat.eqb k i then 1 else x - l k)).
  assert (F : forall x, TQ d b (S n) x = (x - l i) * (x - l i) * R0 x).
  { intros x. rewrite H, (rprod_pick (S n) _ i Hi), (rprod_pick (S n) _ j Hj).
    cbv beta. destruct (Nat.eqb_spec j i); [lia|]. unfold R0. rewrite <- E. ring. }
  assert (D : is_derive (TQ d b (S n)) (l i) 0).
  { apply (is_derive_ext (fun x => (x - l i) * (x - l i) * R0 x)); [intros; symmetry; apply F|].
    assert (X : ex_derive R0 (l i)).
    { apply (rprod_derivable (S n) (fun k x => if Nat.eqb k j then 1 else if Nat.eqb k i then 1 else x - l k)).
      intros k _. destruct (Nat.eqb k j); [apply ex_derive_const|]. destruct (Nat.eqb k i); [apply ex_derive_const|]. auto_derive; auto. }
    auto_derive; [exact X|]. ring. }
  pose proof (is_derive_unique _ _ _ D) as U1. pose proof (is_derive_unique _ _ _ (dTQ_derive d b (l i) (S n))) as U2.
  pose proof (wronskian d b (l i) n ltac:(intros; apply Hb; lia)) as W.
  rewrite <- U2, U1, F in W. ring_simplify in W. lra.
Qed.

(** J v = l v *)
Fixpoint beta (b : nat -> R) (k : nat) : R := match k with O => 1 | S k' => beta b k' * b k end.
Lemma beta_nz b n : (forall k, (1 <= k < n)%nat -> b k <> 0) -> forall k, (k < n)%nat -> beta b k <> 0.
Proof.
  intros H. induction k as [|k IH]; intros Hk; cbn [beta]; [lra|].
  apply Rmult_integral_contrapositive_currified; [apply IH; lia|apply H; lia].
Qed.

Definition tridiag (n : nat) (d b : nat -> R) (J : Mat) : Prop :=
  forall i j, (i < n)%nat -> (j < n)%nat ->
    J i j = if Nat.eqb i j then d i else if Nat.eqb (S i) j then b j else if Nat.eqb i (S j) then b i else 0.

Lemma tridiag_sym n d b J : tridiag n d b J -> symmetric n J.
Proof.
  intros T i j Hi Hj. unfold mtr. rewrite (T i j Hi Hj), (T j i Hj Hi).
  destruct (Nat.eqb_spec i j), (Nat.eqb_spec j i); try lia; [now subst|].
  destruct (Nat.eqb_spec (S i) j), (Nat.eqb_spec i (S j)), (Nat.eqb_spec (S j) i), (Nat.eqb_spec j (S i)); try lia; reflexivity.
Qed.

Section Eigenvector.
Variables (n : nat) (d b : nat -> R) (J : Mat).
Hypothesis T : tridiag n d b J.

Lemma tri_row v k : (k < n)%nat ->
  mvec n J v k = (match k with O => 0 | S k' => b k * v k' end) + d k * v k + (if Nat.ltb (S k) n then b (S k) * v (S k) else 0).
Proof.
  intros Hk. unfold mvec.
  rewrite (rsum_ext n _ (fun j => (if Nat.eqb j k then d j * v j else 0)
     + ((if Nat.eqb (S j) k then b k * v j else 0) + (if Nat.eqb j (S k) then b j * v j else 0)))).
  - rewrite !rsum_plus, (rsum_delta n k (fun j => d j * v j) Hk).
    replace (rsum n (fun j => if Nat.eqb j (S k) then b j * v j else 0)) with (if Nat.ltb (S k) n then b (S k) * v (S k) else 0).
    + replace (rsum n (fun j => if Nat.eqb (S j) k then b k * v j else 0)) with (match k with O => 0 | S k' => b k * v k' end); [ring|].
      destruct k as [|k]; [now rewrite rsum_0 by reflexivity|]. cbn [Nat.eqb].
      now rewrite (rsum_delta n k (fun j => b (S k) * v j)) by lia.
    + destruct (Nat.ltb_spec (S k) n).
      * now rewrite (rsum_delta n (S k) (fun j => b j * v j)).
      * rewrite rsum_0; [reflexivity|]. intros j Hj. destruct (Nat.eqb_spec j (S k)); [lia|reflexivity].
  - intros j Hj. rewrite (T k j Hk Hj).
    destruct (Nat.eqb_spec k j), (Nat.eqb_spec j k); try lia.
    + subst j. destruct (Nat.eqb_spec (S k) k), (Nat.eqb_spec k (S k)); try lia. ring.
    + destruct (Nat.eqb_spec (S k) j), (Nat.eqb_spec j (S k)); try lia.
      * subst j. destruct (Nat.eqb_spec (S (S k)) k); try lia. ring.
      * destruct (Nat.eqb_spec k (S j)), (Nat.eqb_spec (S j) k); try lia; ring.
Qed.

Variables (v : Vec) (l : R).
Hypothesis Hv : forall k, (k < n)%nat -> mvec n J v k = l * v k.

Lemma eigvec_Q : forall k, (k < n)%nat -> beta b k * v k = TQ d b k l * v 0%nat.
Proof.
  apply (nat_ind2 (fun k => (k < n)%nat -> beta b k * v k = TQ d b k l * v 0%nat)).
  - intros _. reflexivity.
  - intros H. pose proof (Hv 0%nat ltac:(lia)) as E. rewrite tri_row in E by lia. destruct (Nat.ltb_spec 1 n); [|lia].
    cbn [beta TQ]. lra.
  - intros k I0 I1 H. specialize (I0 ltac:(lia)). specialize (I1 ltac:(lia)).
    pose proof (Hv (S k) ltac:(lia)) as E. rewrite tri_row in E by lia. destruct (Nat.ltb_spec (S (S k)) n); [|lia].
    rewrite TQ_SS. replace (((l - d (S k)) * TQ d b (S k) l - b (S k) ^ 2 * TQ d b k l) * v 0%nat)
      with ((l - d (S k)) * (TQ d b (S k) l * v 0%nat) - b (S k) ^ 2 * (TQ d b k l * v 0%nat)) by ring.
    rewrite <- I0, <- I1. change (beta b (S (S k))) with (beta b (S k) * b (S (S k))). rewrite Rmult_assoc.
    replace (b (S (S k)) * v (S (S k))) with (l * v (S k) - b (S k) * v k - d (S k) * v (S k)) by lra.
    cbn [beta]. ring.
Qed.

Lemma eigvec_root : (0 < n)%nat -> TQ d b n l * v 0%nat = 0.
Proof.
  intros Hn. assert (C : n = 1%nat \/ exists m, n = S (S m)) by (destruct n as [|[|m]]; [lia|auto|eauto]).
  destruct C as [C | (m & C)].
  - rewrite C. cbn [TQ]. pose proof (Hv 0%nat ltac:(lia)) as E. rewrite tri_row in E by lia.
    destruct (Nat.ltb_spec 1 n); [lia|]. lra.
  - rewrite C, TQ_SS. pose proof (eigvec_Q m ltac:(lia)) as I0. pose proof (eigvec_Q (S m) ltac:(lia)) as I1.
    replace (((l - d (S m)) * TQ d b (S m) l - b (S m) ^ 2 * TQ d b m l) * v 0%nat)
      with ((l - d (S m)) * (TQ d b (S m) l * v 0%nat) - b (S m) ^ 2 * (TQ d b m l * v 0%nat)) by ring.
    rewrite <- I0, <- I1. pose proof (Hv (S m) ltac:(lia)) as E. rewrite tri_row in E by lia.
    destruct (Nat.ltb_spec (S (S m)) n); [lia|].
    cbn [beta]. replace ((l - d (S m)) * (beta b m * b (S m) * v (S m)) - b (S m) ^ 2 * (beta b m * v m))
      with (beta b m * b (S m) * (l * v (S m) - d (S m) * v (S m) - b (S m) * v m)) by ring.
    replace (l * v (S m) - d (S m) * v (S m) - b (S m) * v m) with 0 by lra. ring.
Qed.

Hypothesis Hb : forall k, (1 <= k < n)%nat -> b k <> 0.
Lemma eigvec_nz : rsum n (fun k => v k * v k) = 1 -> v 0%nat <> 0.
Proof.
  intros N E. rewrite rsum_0 in N; [lra|]. intros k Hk. pose proof (eigvec_Q k Hk) as F. rewrite E in F.
  pose proof (beta_nz b n Hb k Hk). assert (v k = 0) as ->; [|ring].
  apply Rmult_eq_reg_l with (beta b k); [lra|assumption].
Qed.
End Eigenvector.

(** symmetric matrices: real eigenvalues, orthogonal eigenvectors *)
Lemma sym_form n J u w : symmetric n J -> rsum n (fun k => w k * mvec n J u k) = rsum n (fun k => u k * mvec n J w k).
Proof.
  intros S. unfold mvec.
  rewrite (rsum_ext n _ (fun k => rsum n (fun j => w k * (J k j * u j)))) by (intros; symmetry; apply rsum_scal).
  rewrite (rsum_ext n (fun k => u k * _) (fun k => rsum n (fun j => u k * (J k j * w j)))) by (intros; symmetry; apply rsum_scal).
  rewrite rsum_swap. apply rsum_ext. intros k Hk. apply rsum_ext. intros j Hj. rewrite (S j k Hj Hk). unfold mtr. ring.
Qed.
Lemma sym_real n J e : symmetric n J -> eigenvectors_of n J e -> forall i, (i < n)%nat -> eg_im e i = 0.
Proof.
  intros S V i Hi. destruct (ev_value _ _ _ V i Hi) as (u & w & (k & Hk & NZ) & U & W).
  pose proof (sym_form n J u w S) as F.
  rewrite (rsum_ext n _ (fun k => eg_re e i * (w k * u k) - eg_im e i * (w k * w k))) in F by (intros j Hj; rewrite (U j Hj); ring).
  rewrite (rsum_ext n (fun k => u k * _) (fun k => eg_re e i * (w k * u k) + eg_im e i * (u k * u k))) in F by (intros j Hj; rewrite (W j Hj); ring).
  rewrite rsum_minus, rsum_plus, !rsum_scal in F.
  assert (P : 0 < rsum n (fun k => w k * w k) + rsum n (fun k => u k * u k)).
  { pose proof (rsum_nonneg n (fun k => w k * w k) ltac:(intros; nra)). pose proof (rsum_nonneg n (fun k => u k * u k) ltac:(intros; nra)).
    destruct NZ as [NZ|NZ].
    - assert (0 < rsum n (fun k => u k * u k)); [|lra].
      pose proof (rsum_le n (fun j => if Nat.eqb j k then u j * u j else 0) (fun j => u j * u j)) as L.
      rewrite (rsum_delta n k (fun j => u j * u j) Hk) in L. enough (0 < u k * u k) by (specialize (L ltac:(intros j _; cbv beta; destruct (Nat.eqb j k); nra)); lra). nra.
    - assert (0 < rsum n (fun k => w k * w k)); [|lra].
      pose proof (rsum_le n (fun j => if Nat.eqb j k then w j * w j else 0) (fun j => w j * w j)) as L.
      rewrite (rsum_delta n k (fun j => w j * w j) Hk) in L. enough (0 < w k * w k) by (specialize (L ltac:(intros j _; cbv beta; destruct (Nat.eqb j k); nra)); lra). nra. }
  apply Rmult_eq_reg_r with (rsum n (fun k => w k * w k) + rsum n (fun k => u k * u k)); lra.
Qed.
Lemma sym_orth n J u w x y : symmetric n J -> x <> y ->
  (forall k, (k < n)%nat -> mvec n J u k = x * u k) -> (forall k, (k < n)%nat -> mvec n J w k = y * w k) ->
  rsum n (fun k => u k * w k) = 0.
Proof.
  intros S N U W. pose proof (sym_form n J u w S) as F.
  rewrite (rsum_ext n _ (fun k => x * (u k * w k))) in F by (intros j Hj; rewrite (U j Hj); ring).
  rewrite (rsum_ext n (fun k => u k * mvec n J w k) (fun k => y * (u k * w k))) in F by (intros j Hj; rewrite (W j Hj); ring).
  rewrite !rsum_scal in F. apply Rmult_eq_reg_l with (x - y); lra.
Qed.

(** everything that is needed of the solver's result *)
Section Result.
Variables (n : nat) (d b : nat -> R) (J : Mat) (e : Eigen).
Hypothesis T : tridiag n d b J.
Hypothesis Hb : forall k, (1 <= k < n)%nat -> b k <> 0.
Hypothesis V : eigenvectors_of n J e.
Let l := eg_re e.
Let v := eg_vec e.

Lemma res_vec i : (i < n)%nat -> (forall k, (k < n)%nat -> mvec n J (v i) k = l i * v i k) /\ rsum n (fun k => v i k * v i k) = 1.
Proof. intros Hi. apply (ev_vector _ _ _ V i Hi). eapply sym_real; eauto. eapply tridiag_sym; eauto. Qed.
Lemma res_char x : TQ d b n x = rprod n (fun i => x - l i).
Proof.
  rewrite <- det_tri, <- (ev_multiplicity _ _ _ V).
  - apply detR_ext. intros i j Hi Hj. unfold triM, mone. rewrite (T i j) by assumption.
    destruct (Nat.eqb_spec i j); [ring|]. destruct (Nat.eqb_spec (S i) j); [ring|]. destruct (Nat.eqb_spec i (S j)); ring.
  - eapply sym_real; eauto. eapply tridiag_sym; eauto.
Qed.
Lemma res_distinct i j : (i < n)%nat -> (j < n)%nat -> i <> j -> l i <> l j.
Proof. apply (roots_distinct d b n l Hb). apply res_char. Qed.
Lemma res_nz i : (i < n)%nat -> v i 0%nat <> 0.
Proof. intros Hi. eapply eigvec_nz; eauto; apply res_vec; auto. Qed.
Lemma res_cols i j : (i < n)%nat -> (j < n)%nat -> rsum n (fun k => v i k * v j k) = if Nat.eqb i j then 1 else 0.
Proof.
  intros Hi Hj. destruct (Nat.eqb_spec i j) as [->|N]; [now apply res_vec|].
  eapply sym_orth with (x := l i) (y := l j); [eapply tridiag_sym; exact T|now apply res_distinct|now apply res_vec|now apply res_vec].
Qed.
Lemma res_rows j k : (j < n)%nat -> (k < n)%nat -> rsum n (fun i => v i j * v i k) = if Nat.eqb j k then 1 else 0.
Proof.
  intros Hj Hk.
  assert (M : meq n n (mmul n v (mtr v)) mone) by (intros a c Ha Hc; apply (res_cols a c Ha Hc)).
  apply minv_comm in M. specialize (M j k Hj Hk). exact M.
Qed.
Lemma res_Q i k : (i < n)%nat -> (k < n)%nat -> TQ d b k (l i) * v i 0%nat = beta b k * v i k.
Proof. intros Hi Hk. symmetry. eapply eigvec_Q; eauto. now apply res_vec. Qed.
Lemma res_root i : (i < n)%nat -> TQ d b n (l i) = 0.
Proof.
  intros Hi. apply Rmult_eq_reg_r with (v i 0%nat); [|now apply res_nz]. rewrite Rmult_0_l. eapply eigvec_root; eauto; [now apply res_vec|lia].
Qed.
End Result.
