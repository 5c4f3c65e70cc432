(** Finite sums of reals. *)
From Coq Require Import PeanoNat Bool List Lia Reals Lra FunctionalExtensionality.
From Verif Require Import M_RefTopo M_RefGeo.
Import ListNotations.
Local Open Scope R_scope.

Lemma rsum_S n f : rsum (S n) f = rsum n f + f n. Proof. reflexivity. Qed.
Lemma rsum_ext n f g : (forall k, (k < n)%nat -> f k = g k) -> rsum n f = rsum n g.
Proof. induction n; intros H; simpl; [reflexivity|]. rewrite IHn, H; auto. Qed.
Lemma rsum_plus n f g : rsum n (fun k => f k + g k) = rsum n f + rsum n g.
Proof. induction n; simpl; [lra|]. rewrite IHn. lra. Qed.
Lemma rsum_minus n f g : rsum n (fun k => f k - g k) = rsum n f - rsum n g.
Proof. induction n; simpl; [lra|]. rewrite IHn. lra. Qed.
Lemma rsum_scal n a f : rsum n (fun k => a * f k) = a * rsum n f.
Proof. induction n; simpl; [lra|]. rewrite IHn. lra. Qed.
Lemma rsum_scal_r n a f : rsum n (fun k => f k * a) = rsum n f * a.
Proof. induction n; simpl; [lra|]. rewrite IHn. lra. Qed.
Lemma rsum_0 n f : (forall k, (k < n)%nat -> f k = 0) -> rsum n f = 0.
Proof. induction n; intros H; simpl; [reflexivity|]. rewrite IHn, H; auto; lra. Qed.
Lemma rsum_const n a : rsum n (fun _ => a) = INR n * a.
Proof. induction n; [simpl; lra|]. rewrite rsum_S, IHn, S_INR. lra. Qed.
Lemma rsum_swap n m (f : nat -> nat -> R) :
  rsum n (fun i => rsum m (f i)) = rsum m (fun j => rsum n (fun i => f i j)).
Proof.
  induction n; simpl.
  - symmetry. now apply rsum_0.
  - rewrite IHn, <- rsum_plus. reflexivity.
Qed.
Lemma rsum_trunc n m f : (n <= m)%nat -> (forall k, (n <= k < m)%nat -> f k = 0) -> rsum m f = rsum n f.
Proof.
  intros H. induction m; intros Z.
  - replace n with O by lia. reflexivity.
  - destruct (Nat.eq_dec n (S m)) as [->|]; [reflexivity|]. simpl.
    rewrite IHm, (Z m); try lia; [lra|]. intros; apply Z; lia.
Qed.
Lemma rsum_delta n i a : (i < n)%nat -> rsum n (fun k => if Nat.eqb k i then a k else 0) = a i.
Proof.
  induction n; intros H; [lia|]. simpl. destruct (Nat.eq_dec i n) as [->|].
  - rewrite rsum_0, Nat.eqb_refl; [lra|]. intros k Hk. destruct (Nat.eqb_spec k n); [lia|reflexivity].
  - rewrite IHn by lia. destruct (Nat.eqb_spec n i); [lia|lra].
Qed.
Lemma rsum_le n f g : (forall k, (k < n)%nat -> f k <= g k) -> rsum n f <= rsum n g.
Proof. induction n; intros H; simpl; [lra|]. specialize (IHn (fun k Hk => H k (Nat.lt_lt_succ_r _ _ Hk))). specialize (H n (Nat.lt_succ_diag_r n)). lra. Qed.
Lemma rsum_nonneg n f : (forall k, (k < n)%nat -> 0 <= f k) -> 0 <= rsum n f.
Proof. intros H. rewrite <- (rsum_0 n (fun _ => 0)) by reflexivity. now apply rsum_le. Qed.
Lemma rsum_shift n f : rsum (S n) f = f O + rsum n (fun k => f (S k)).
Proof. induction n; simpl in *; lra. Qed.
Lemma rsum_app n m f : rsum (n + m) f = rsum n f + rsum m (fun k => f (n + k)%nat).
Proof.
  induction m; simpl; [rewrite Nat.add_0_r; lra|].
  rewrite Nat.add_succ_r. simpl. rewrite IHm. lra.
Qed.

(** sums over lists *)
Definition lsum {A} (f : A -> R) (l : list A) : R := fold_right (fun a s => f a + s) 0 l.
Lemma lsum_cons {A} f (a : A) l : lsum f (a :: l) = f a + lsum f l. Proof. reflexivity. Qed.
Lemma lsum_app {A} f (l l' : list A) : lsum f (l ++ l') = lsum f l + lsum f l'.
Proof. unfold lsum. induction l; simpl; [lra|]. rewrite IHl. lra. Qed.
Lemma lsum_map {A B} (g : A -> B) f l : lsum f (map g l) = lsum (fun a => f (g a)) l.
Proof. unfold lsum. induction l; simpl; [reflexivity|]. now rewrite IHl. Qed.
Lemma lsum_ext {A} (f g : A -> R) l : (forall a, In a l -> f a = g a) -> lsum f l = lsum g l.
Proof. unfold lsum. induction l; intros H; simpl; [reflexivity|]. rewrite IHl, H; simpl; auto. intros; apply H; simpl; auto. Qed.
Lemma lsum_plus {A} (f g : A -> R) l : lsum (fun a => f a + g a) l = lsum f l + lsum g l.
Proof. unfold lsum. induction l; simpl; [lra|]. rewrite IHl. lra. Qed.
Lemma lsum_scal {A} a (f : A -> R) l : lsum (fun x => a * f x) l = a * lsum f l.
Proof. unfold lsum. induction l; simpl; [lra|]. rewrite IHl. lra. Qed.
Lemma lsum_0 {A} (f : A -> R) l : (forall a, In a l -> f a = 0) -> lsum f l = 0.
Proof. unfold lsum. induction l; intros H; simpl; [lra|]. rewrite IHl, H; simpl; auto; [lra|]. intros; apply H; simpl; auto. Qed.
Lemma lsum_const {A} a (l : list A) : lsum (fun _ => a) l = INR (length l) * a.
Proof. unfold lsum. induction l; [simpl; lra|]. cbn [fold_right length]. rewrite IHl, S_INR. lra. Qed.
Lemma lsum_nonneg {A} (f : A -> R) l : (forall a, In a l -> 0 <= f a) -> 0 <= lsum f l.
Proof. unfold lsum. induction l; intros H; simpl; [lra|]. pose proof (H a (or_introl eq_refl)). specialize (IHl (fun x Hx => H x (or_intror Hx))). lra. Qed.
Lemma lsum_rsum_swap {A} n (f : A -> nat -> R) l :
  lsum (fun a => rsum n (f a)) l = rsum n (fun k => lsum (fun a => f a k) l).
Proof.
  unfold lsum. induction l; simpl; [symmetry; now apply rsum_0|]. rewrite IHl, <- rsum_plus. reflexivity.
Qed.
Lemma lsum_seq f n : lsum f (seq 0 n) = rsum n f.
Proof.
  induction n; [reflexivity|]. rewrite seq_S, lsum_app, IHn. cbn [lsum fold_right]. simpl. lra.
Qed.

Lemma upd_eq v k x : upd v k x k = x. Proof. unfold upd. now rewrite Nat.eqb_refl. Qed.
Lemma upd_ne v k x j : j <> k -> upd v k x j = v j.
Proof. unfold upd. intros H. destruct (Nat.eqb_spec j k); [contradiction|reflexivity]. Qed.
Lemma mupd_row m i k x : mupd m i k x i = upd (m i) k x.
Proof. unfold mupd. now rewrite Nat.eqb_refl. Qed.
Lemma mupd_ne m i k x i' : i' <> i -> mupd m i k x i' = m i'.
Proof. unfold mupd. intros H. destruct (Nat.eqb_spec i' i); [contradiction|reflexivity]. Qed.

Lemma dot_upd n v k x w : (k < n)%nat -> v k = 0 -> dot n (upd v k x) w = dot n v w + x * w k.
Proof.
  intros H Z. unfold dot.
  rewrite <- (rsum_delta n k (fun j => x * w j) H), <- rsum_plus. apply rsum_ext. intros j Hj.
  destruct (Nat.eqb_spec j k) as [->|E]; [rewrite upd_eq, Z; lra|rewrite upd_ne by assumption; lra].
Qed.
Lemma dot_comm n v w : dot n v w = dot n w v.
Proof. apply rsum_ext. intros; lra. Qed.
Lemma dot_vzero n w : dot n vzero w = 0.
Proof. apply rsum_0. intros; unfold vzero; lra. Qed.
Lemma dot_ext n v w v' w' : (forall k, (k < n)%nat -> v k = v' k) -> (forall k, (k < n)%nat -> w k = w' k) ->
  dot n v w = dot n v' w'.
Proof. intros A B. apply rsum_ext. intros. now rewrite A, B. Qed.
Lemma dot_trunc n m v w : (n <= m)%nat -> (forall k, (n <= k < m)%nat -> v k = 0) -> dot m v w = dot n v w.
Proof. intros A B. apply rsum_trunc; auto. intros k Hk. rewrite B by assumption. lra. Qed.
