(** Quadrature from the eigenvectors of a symmetric tridiagonal matrix: exact up to degree 2n-1
    for a linear functional for which the polynomials of the recurrence are orthogonal. *)
From Coq Require Import PeanoNat Lia Reals Lra FunctionalExtensionality.
From Coquelicot Require Import Coquelicot.
From Verif Require Import M_RefGeo M_GolubWelsch S_Matrix P_RSum P_Det P_MxBridge S_GolubWelsch P_GW1.
Local Open Scope R_scope.

Definition Cts (f : R -> R) : Prop := forall x, continuous f x.
Record LinF (L : (R -> R) -> R) : Prop := {
  lf_plus : forall f g, Cts f -> Cts g -> L (fun x => f x + g x) = L f + L g;
  lf_scal : forall c f, Cts f -> L (fun x => c * f x) = c * L f }.

Lemma cts_const c : Cts (fun _ => c). Proof. intros x. apply continuous_const. Qed.
Lemma cts_id : Cts (fun x => x). Proof. intros x. apply continuous_id. Qed.
Lemma cts_plus f g : Cts f -> Cts g -> Cts (fun x => f x + g x).
Proof. intros F G x. apply (continuous_plus f g); auto. Qed.
Lemma cts_minus f g : Cts f -> Cts g -> Cts (fun x => f x - g x).
Proof. intros F G x. apply (continuous_minus f g); auto. Qed.
Lemma cts_mult f g : Cts f -> Cts g -> Cts (fun x => f x * g x).
Proof. intros F G x. apply (continuous_mult f g); auto. Qed.
Lemma cts_pow f m : Cts f -> Cts (fun x => f x ^ m).
Proof. intros F. induction m as [|m IH]; cbn [pow]; [apply cts_const|now apply cts_mult]. Qed.
Lemma cts_TQ d b k : Cts (TQ d b k).
Proof.
  revert k. apply nat_ind2.
  - apply cts_const.
  - apply cts_minus; [apply cts_id|apply cts_const].
  - intros k I0 I1. apply cts_minus; [apply cts_mult; [apply cts_minus; [apply cts_id|apply cts_const]|exact I1]|].
    apply cts_mult; [apply cts_const|exact I0].
Qed.
Lemma cts_rsum n (f : nat -> R -> R) : (forall k, (k < n)%nat -> Cts (f k)) -> Cts (fun x => rsum n (fun k => f k x)).
Proof.
  induction n as [|n IH]; intros H; cbn [rsum]; [apply cts_const|].
  apply cts_plus; [apply IH; intros; apply H; lia|apply H; lia].
Qed.
#[global] Hint Resolve cts_const cts_id cts_plus cts_minus cts_mult cts_pow cts_TQ cts_rsum : cts.

Section Lin.
Variable L : (R -> R) -> R.
Hypothesis HL : LinF L.
Lemma lf_0 : L (fun _ => 0) = 0.
Proof. pose proof (lf_scal _ HL 0 (fun _ => 0) (cts_const 0)) as H. cbv beta in H. rewrite Rmult_0_l in H. lra. Qed.
Lemma lf_minus f g : Cts f -> Cts g -> L (fun x => f x - g x) = L f - L g.
Proof.
  intros F G. pose proof (lf_plus _ HL f (fun x => -1 * g x) F ltac:(auto with cts)) as H. rewrite (lf_scal _ HL) in H by assumption.
  replace (L f - L g) with (L f + -1 * L g) by ring. rewrite <- H. f_equal.
  apply functional_extensionality. intros x. ring.
Qed.
Lemma lf_ext f g : (forall x, f x = g x) -> L f = L g.
Proof. intros H. f_equal. now apply functional_extensionality. Qed.
Lemma lf_rsum n (f : nat -> R -> R) : (forall k, (k < n)%nat -> Cts (f k)) -> L (fun x => rsum n (fun k => f k x)) = rsum n (fun k => L (f k)).
Proof.
  induction n as [|n IH]; intros H; cbn [rsum]; [apply lf_0|].
  rewrite (lf_plus _ HL) by (try apply cts_rsum; intros; apply H; lia). rewrite IH by (intros; apply H; lia). reflexivity.
Qed.
(** a + c b + c' b' *)
Lemma lf_comb3 f1 f2 f3 c2 c3 : Cts f1 -> Cts f2 -> Cts f3 ->
  L (fun x => f1 x + c2 * f2 x + c3 * f3 x) = L f1 + c2 * L f2 + c3 * L f3.
Proof.
  intros. rewrite (lf_plus _ HL (fun x => f1 x + c2 * f2 x) (fun x => c3 * f3 x)) by auto with cts.
  rewrite (lf_plus _ HL f1 (fun x => c2 * f2 x)) by auto with cts. rewrite !(lf_scal _ HL) by assumption. reflexivity.
Qed.
Lemma lf_comb2 f1 f2 c2 : Cts f1 -> Cts f2 -> L (fun x => f1 x + c2 * f2 x) = L f1 + c2 * L f2.
Proof. intros. rewrite (lf_plus _ HL f1 (fun x => c2 * f2 x)) by auto with cts. rewrite (lf_scal _ HL) by assumption. reflexivity. Qed.
End Lin.

Section Span.
Variables (d b : nat -> R) (n : nat) (E : (R -> R) -> R).
Hypothesis HE : LinF E.
Notation Q := (TQ d b).

Lemma TQ_up k x : x * Q (S k) x = Q (S (S k)) x + d (S k) * Q (S k) x + b (S k) ^ 2 * Q k x.
Proof. rewrite TQ_SS. ring. Qed.
Lemma TQ_up0 x : x * Q 0 x = Q 1 x + d 0%nat * Q 0 x.
Proof. cbn [TQ]. ring. Qed.

(** multiplication by x inside of a functional *)
Lemma lf_up g k : Cts g -> E (fun x => g x * (x * Q (S k) x)) =
  E (fun x => g x * Q (S (S k)) x) + d (S k) * E (fun x => g x * Q (S k) x) + b (S k) ^ 2 * E (fun x => g x * Q k x).
Proof.
  intros G. rewrite <- lf_comb3 by auto with cts. apply lf_ext. intros x. rewrite TQ_up. ring.
Qed.
Lemma lf_up0 g : Cts g -> E (fun x => g x * (x * Q 0 x)) = E (fun x => g x * Q 1 x) + d 0%nat * E (fun x => g x * Q 0 x).
Proof. intros G. rewrite <- lf_comb2 by auto with cts. apply lf_ext. intros x. rewrite TQ_up0. ring. Qed.

(** If E vanishes on g Q_k for all k <= N then on g x^m Q_j for j + m <= N. *)
Lemma lf_powers N g : Cts g -> (forall k, (k <= N)%nat -> E (fun x => g x * Q k x) = 0) ->
  forall m j, (j + m <= N)%nat -> E (fun x => g x * (x ^ m * Q j x)) = 0.
Proof.
  intros G H. induction m as [|m IH]; intros j Hj.
  - rewrite (lf_ext E _ (fun x => g x * Q j x)) by (intros; simpl; ring). apply H. lia.
  - rewrite (lf_ext E _ (fun x => (g x * x ^ m) * (x * Q j x))) by (intros; simpl; ring).
    assert (A : forall j', (j' + m <= N)%nat -> E (fun x => (g x * x ^ m) * Q j' x) = 0).
    { intros j' Hj'. rewrite <- (IH j' Hj'). apply lf_ext. intros x. ring. }
    destruct j as [|j].
    + rewrite lf_up0 by auto with cts. rewrite !A by lia. ring.
    + rewrite lf_up by auto with cts. rewrite !A by lia. ring.
Qed.

Hypothesis H0 : forall j k, (j < n)%nat -> (k <= n)%nat -> E (fun x => Q j x * Q k x) = 0.
Lemma span_monomial m : (m < 2 * n)%nat -> E (fun x => x ^ m) = 0.
Proof.
  intros Hm. assert (X : exists m1 m2, m = (m1 + m2)%nat /\ (m1 < n)%nat /\ (m2 <= n)%nat).
  { destruct (Nat.lt_ge_cases m n); [exists m, 0%nat; lia|]. exists (m - n)%nat, n. lia. }
  destruct X as (m1 & m2 & -> & H1 & H2).
  assert (A : forall k, (k <= n)%nat -> E (fun x => Q k x * (x ^ m1 * Q 0 x)) = 0).
  { intros k Hk. apply (lf_powers (n - 1)); [auto with cts| |lia].
    intros j Hj. rewrite <- (H0 j k) by lia. apply lf_ext. intros x. ring. }
  rewrite (lf_ext E _ (fun x => x ^ m1 * (x ^ m2 * Q 0 x))) by (intros x; rewrite pow_add; cbn [TQ]; ring).
  apply (lf_powers n); [auto with cts| |lia].
  intros k Hk. rewrite <- (A k Hk). apply lf_ext. intros x. cbn [TQ]. ring.
Qed.
(** times powers of two linear functions *)
Lemma span_linear p0 p1 q0 q1 s t : forall m, (m + s + t < 2 * n)%nat -> E (fun x => (x ^ m * (p0 + p1 * x) ^ s) * (q0 + q1 * x) ^ t) = 0.
Proof.
  assert (A : forall s m, (m + s < 2 * n)%nat -> E (fun x => x ^ m * (p0 + p1 * x) ^ s) = 0).
  { clear s t. induction s as [|s IH]; intros m Hm.
    - rewrite (lf_ext E _ (fun x => x ^ m)) by (intros; simpl; ring). apply span_monomial. lia.
    - rewrite (lf_ext E _ (fun x => p0 * (x ^ m * (p0 + p1 * x) ^ s) + p1 * (x ^ S m * (p0 + p1 * x) ^ s))) by (intros; simpl; ring).
      rewrite lf_comb2 by auto 10 with cts. rewrite (lf_scal _ HE) by auto 10 with cts. rewrite !IH by lia. ring. }
  induction t as [|t IH]; intros m Hm.
  - rewrite (lf_ext E _ (fun x => x ^ m * (p0 + p1 * x) ^ s)) by (intros; simpl; ring). apply A. lia.
  - rewrite (lf_ext E _ (fun x => q0 * ((x ^ m * (p0 + p1 * x) ^ s) * (q0 + q1 * x) ^ t)
       + q1 * ((x ^ S m * (p0 + p1 * x) ^ s) * (q0 + q1 * x) ^ t))) by (intros; simpl; ring).
    rewrite lf_comb2 by auto 15 with cts. rewrite (lf_scal _ HE) by auto 15 with cts. rewrite !IH by lia. ring.
Qed.
End Span.

Section Gauss.
Variables (n : nat) (d b : nat -> R) (J : Mat) (e : Eigen) (L : (R -> R) -> R).
Hypothesis T : tridiag n d b J.
Hypothesis Hb : forall k, (1 <= k < n)%nat -> b k <> 0.
Hypothesis V : eigenvectors_of n J e.
Hypothesis HL : LinF L.
Notation Q := (TQ d b).
Hypothesis Ho : forall j k, (j < k)%nat -> (k <= n)%nat -> L (fun x => Q k x * Q j x) = 0.
Let l := eg_re e.
Let v := eg_vec e.
Let mu := L (fun _ => 1).
(** the quadrature sum *)
Definition Lam (f : R -> R) : R := rsum n (fun i => mu * v i 0%nat * v i 0%nat * f (l i)).

Lemma lam_lin : LinF Lam.
Proof.
  split; intros.
  - unfold Lam. rewrite <- rsum_plus. apply rsum_ext. intros. ring.
  - unfold Lam. rewrite <- rsum_scal. apply rsum_ext. intros. ring.
Qed.
Definition Err (f : R -> R) : R := Lam f - L f.
Lemma err_lin : LinF Err.
Proof.
  split; intros; unfold Err.
  - rewrite (lf_plus _ lam_lin), (lf_plus _ HL) by assumption. ring.
  - rewrite (lf_scal _ lam_lin), (lf_scal _ HL) by assumption. ring.
Qed.

Lemma norms k : (k < n)%nat -> L (fun x => Q k x * Q k x) = mu * beta b k ^ 2.
Proof.
  induction k as [|k IH]; intros Hk.
  - cbn [TQ beta]. unfold mu. rewrite (lf_ext L _ (fun _ => 1)) by (intros; ring). ring.
  - assert (IH' := IH ltac:(lia)). clear IH.
    assert (A : L (fun x => Q (S k) x * (x * Q k x)) = L (fun x => Q (S k) x * Q (S k) x)).
    { destruct k as [|k].
      - rewrite lf_up0 by auto with cts. rewrite (Ho 0 1) by lia. ring.
      - rewrite lf_up by auto with cts. rewrite (Ho (S k) (S (S k))), (Ho k (S (S k))) by lia. ring. }
    assert (B : L (fun x => Q k x * (x * Q (S k) x)) = b (S k) ^ 2 * L (fun x => Q k x * Q k x)).
    { rewrite lf_up by auto with cts.
      rewrite (lf_ext L (fun x => Q k x * Q (S (S k)) x) (fun x => Q (S (S k)) x * Q k x)) by (intros; ring).
      rewrite (lf_ext L (fun x => Q k x * Q (S k) x) (fun x => Q (S k) x * Q k x)) by (intros; ring).
      rewrite (Ho k (S (S k))), (Ho k (S k)) by lia. ring. }
    rewrite <- A, (lf_ext L _ (fun x => Q k x * (x * Q (S k) x))) by (intros; ring). rewrite B, IH'. cbn [beta]. ring.
Qed.

Lemma err_Q j k : (j < n)%nat -> (k <= n)%nat -> Err (fun x => Q j x * Q k x) = 0.
Proof.
  intros Hj Hk. unfold Err. destruct (Nat.eq_dec k n) as [->|N].
  - unfold Lam. rewrite rsum_0.
    + rewrite (lf_ext L _ (fun x => Q n x * Q j x)) by (intros; ring). rewrite Ho by lia. ring.
    + intros i Hi. rewrite (res_root n d b J e T Hb V i Hi : Q n (l i) = 0). ring.
  - assert (A : Lam (fun x => Q j x * Q k x) = if Nat.eqb j k then mu * beta b k ^ 2 else 0).
    { unfold Lam. rewrite (rsum_ext n _ (fun i => (mu * beta b j * beta b k) * (v i j * v i k))).
      - rewrite rsum_scal. change v with (eg_vec e). rewrite (res_rows n d b J e T Hb V j k Hj ltac:(lia)).
        destruct (Nat.eqb_spec j k) as [->|]; ring.
      - intros i Hi. pose proof (res_Q n d b J e T V i j Hi Hj) as A1. pose proof (res_Q n d b J e T V i k Hi ltac:(lia)) as A2.
        fold l v in A1, A2. replace (mu * v i 0%nat * v i 0%nat * (Q j (l i) * Q k (l i))) with (mu * (Q j (l i) * v i 0%nat) * (Q k (l i) * v i 0%nat)) by ring.
        rewrite A1, A2. ring. }
    rewrite A. destruct (Nat.eqb_spec j k) as [->|N2].
    + rewrite norms by assumption. ring.
    + destruct (Nat.lt_ge_cases j k).
      * rewrite (lf_ext L _ (fun x => Q k x * Q j x)) by (intros; ring). rewrite Ho by lia. ring.
      * rewrite Ho by lia. ring.
Qed.

Theorem gauss_exact p0 p1 q0 q1 s t : (s + t < 2 * n)%nat ->
  Lam (fun x => (p0 + p1 * x) ^ s * (q0 + q1 * x) ^ t) = L (fun x => (p0 + p1 * x) ^ s * (q0 + q1 * x) ^ t).
Proof.
  intros H. pose proof (span_linear d b n Err err_lin err_Q p0 p1 q0 q1 s t 0 H) as A.
  rewrite (lf_ext Err _ (fun x => (p0 + p1 * x) ^ s * (q0 + q1 * x) ^ t)) in A by (intros; simpl; ring).
  unfold Err in A. lra.
Qed.

(** the node is a mean value *)
Definition kern (i : nat) (x : R) : R := rsum n (fun k => v i k / beta b k * Q k x).
Lemma cts_kern i : Cts (kern i). Proof. apply (cts_rsum n (fun k x => v i k / beta b k * Q k x)). auto with cts. Qed.
Lemma kern_node i j : (i < n)%nat -> (j < n)%nat -> v j 0%nat * kern i (l j) = if Nat.eqb i j then 1 else 0.
Proof.
  intros Hi Hj. unfold kern. rewrite <- rsum_scal. rewrite <- (res_cols n d b J e T Hb V i j Hi Hj).
  apply rsum_ext. intros k Hk. fold v. replace (v j 0%nat * (v i k / beta b k * Q k (l j))) with (v i k / beta b k * (Q k (l j) * v j 0%nat)) by ring.
  rewrite (res_Q n d b J e T V j k Hj Hk : Q k (l j) * v j 0%nat = beta b k * v j k). field. apply (beta_nz b n Hb k Hk).
Qed.
Lemma err_kern p0 p1 i : (i < n)%nat -> Err (fun x => (p0 + p1 * x) * (kern i x * kern i x)) = 0.
Proof.
  intros Hi.
  assert (A : forall j k, (j < n)%nat -> (k < n)%nat -> Err (fun x => Q j x * ((p0 + p1 * x) * Q k x)) = 0).
  { intros j k Hj Hk.
    rewrite (lf_ext Err _ (fun x => p0 * (Q j x * Q k x) + p1 * (Q j x * (x * Q k x)))) by (intros; ring).
    rewrite (lf_comb2 _ err_lin) by auto 10 with cts. rewrite (lf_scal _ err_lin) by auto 10 with cts. rewrite err_Q by lia.
    destruct k as [|k].
    - rewrite (lf_up0 d b Err err_lin) by auto with cts. rewrite !err_Q by lia. ring.
    - rewrite (lf_up d b Err err_lin) by auto with cts. rewrite !err_Q by lia. ring. }
  rewrite (lf_ext Err _ (fun x => rsum n (fun k => rsum n (fun j => v i j / beta b j * (v i k / beta b k) * (Q j x * ((p0 + p1 * x) * Q k x)))))).
  - rewrite (lf_rsum _ err_lin n (fun k x => rsum n (fun j => v i j / beta b j * (v i k / beta b k) * (Q j x * ((p0 + p1 * x) * Q k x))))).
    + apply rsum_0. intros k Hk. cbv beta.
      rewrite (lf_rsum _ err_lin n (fun j x => v i j / beta b j * (v i k / beta b k) * (Q j x * ((p0 + p1 * x) * Q k x)))) by (intros; auto 10 with cts).
      apply rsum_0. intros j Hj. cbv beta. rewrite (lf_scal _ err_lin) by auto 10 with cts. rewrite A by assumption. ring.
    + intros k _. apply (cts_rsum n (fun j x => v i j / beta b j * (v i k / beta b k) * (Q j x * ((p0 + p1 * x) * Q k x)))). intros; auto 10 with cts.
  - intros x. unfold kern. rewrite <- (rsum_scal n (rsum n (fun k => v i k / beta b k * Q k x))).
    rewrite <- rsum_scal. apply rsum_ext. intros k _. rewrite <- rsum_scal_r. rewrite <- rsum_scal. apply rsum_ext. intros j _. ring.
Qed.
Lemma node_mean p0 p1 i : (i < n)%nat -> mu * (p0 + p1 * l i) = L (fun x => (p0 + p1 * x) * (kern i x * kern i x)).
Proof.
  intros Hi. pose proof (err_kern p0 p1 i Hi) as H. unfold Err in H. replace (L _) with (Lam (fun x => (p0 + p1 * x) * (kern i x * kern i x))) by lra.
  unfold Lam. rewrite (rsum_ext n _ (fun j => if Nat.eqb j i then mu * (p0 + p1 * l j) else 0)).
  - now rewrite (rsum_delta n i (fun j => mu * (p0 + p1 * l j)) Hi).
  - intros j Hj. replace (_ * _) with (mu * (p0 + p1 * l j) * (v j 0%nat * kern i (l j)) * (v j 0%nat * kern i (l j))) by ring.
    rewrite kern_node by assumption. destruct (Nat.eqb_spec i j), (Nat.eqb_spec j i); try lia; ring.
Qed.
End Gauss.
