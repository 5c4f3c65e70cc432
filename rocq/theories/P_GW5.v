(** The contract of the eigenvalue solver can be met: the tridiagonal matrices have n different
    real eigenvalues. *)
From Coq Require Import PeanoNat Lia Reals Lra List.
From Coquelicot Require Import Coquelicot.
From Verif Require Import M_RefGeo M_Matrix M_GolubWelsch S_Matrix P_RSum P_Det P_MxBridge S_GolubWelsch P_GW1 P_GW2.
Import ListNotations.
Local Open Scope R_scope.

(** polynomials of degree less than n *)
Fixpoint pol (n : nat) (f : R -> R) : Prop :=
  match n with O => forall x, f x = 0 | S n' => exists c g, pol n' g /\ forall x, f x = c + x * g x end.
Lemma pol_ext n : forall f g, (forall x, f x = g x) -> pol n f -> pol n g.
Proof.
  destruct n as [|n]; intros f g E; cbn [pol]; [intros H x; now rewrite <- E|].
  intros (c & h & P & H). exists c, h. split; [exact P|]. intros x. now rewrite <- E.
Qed.
Lemma pol_0 n : pol n (fun _ => 0).
Proof. induction n as [|n IH]; cbn [pol]; [reflexivity|]. exists 0, (fun _ => 0). split; [exact IH|]. intros; ring. Qed.
Lemma pol_comb n u w : forall f g, pol n f -> pol n g -> pol n (fun x => u * f x + w * g x).
Proof.
  induction n as [|n IH]; intros f g; cbn [pol].
  - intros F G x. rewrite F, G. ring.
  - intros (c & f' & F & Hf) (k & g' & G & Hg). exists (u * c + w * k), (fun x => u * f' x + w * g' x). split; [now apply IH|].
    intros x. rewrite Hf, Hg. ring.
Qed.
Lemma pol_up n : forall f, pol n f -> pol (S n) f.
Proof.
  induction n as [|n IH]; intros f F.
  - exists 0, (fun _ => 0). split; [intros ?; reflexivity|]. intros x. rewrite F. ring.
  - destruct F as (c & g & G & H). exists c, g. split; [now apply IH|exact H].
Qed.
Lemma pol_x n f : pol n f -> pol (S n) (fun x => x * f x).
Proof. intros F. exists 0, f. split; [exact F|]. intros; ring. Qed.
Lemma pol_div n r : forall f, pol (S n) f -> exists g, pol n g /\ forall x, f x - f r = (x - r) * g x.
Proof.
  induction n as [|n IH]; intros f (c & g & G & H).
  - exists (fun _ => 0). split; [intros ?; reflexivity|]. intros x. rewrite !H, !G. ring.
  - destruct (IH g G) as (q & Pq & Hq). exists (fun x => g r + x * q x). split.
    + exists (g r), q. split; [exact Pq|intros ?; reflexivity].
    + intros x. rewrite !H. replace (c + x * g x - (c + r * g r)) with ((x - r) * g r + x * (g x - g r)) by ring. rewrite Hq. ring.
Qed.
Lemma pol_roots n : forall f l, pol n f -> (forall i j : nat, (i < j < n)%nat -> l i <> l j) -> (forall i, (i < n)%nat -> f (l i) = 0) ->
  forall x, f x = 0.
Proof.
  induction n as [|n IH]; intros f l P D Z; [exact P|].
  destruct (pol_div n (l n) f P) as (g & G & H). rewrite (Z n) in H by lia.
  assert (G0 : forall x, g x = 0).
  { apply (IH g l G).
    - intros i j Hij. apply D. lia.
    - intros i Hi. specialize (H (l i)). rewrite (Z i) in H by lia.
      assert (N : l i <> l n) by (apply D; lia). apply Rmult_eq_reg_l with (l i - l n); lra. }
  intros x. specialize (H x). rewrite G0 in H. lra.
Qed.

Lemma TQ_monic d b : forall k, pol k (fun x => TQ d b k x - x ^ k).
Proof.
  apply (nat_ind2 (fun k => pol k (fun x => TQ d b k x - x ^ k))).
  - intros x. cbn [TQ pow]. ring.
  - exists (- d 0%nat), (fun _ => 0). split; [intros ?; reflexivity|]. intros x. cbn [TQ pow]. ring.
  - intros k I0 I1.
    apply (pol_ext _ (fun x => 1 * (1 * (x * (TQ d b (S k) x - x ^ S k)) + - d (S k) * (TQ d b (S k) x - x ^ S k))
              + 1 * (- d (S k) * x ^ S k + - (b (S k) ^ 2) * TQ d b k x))).
    + intros x. rewrite TQ_SS. cbn [pow]. ring.
    + assert (X : forall m, pol (S m) (fun x => x ^ m)).
      { induction m as [|m IH]; [exists 1, (fun _ => 0); split; [intros ?; reflexivity|intros; cbn [pow]; ring]|]. now apply (pol_x (S m) (fun x => x ^ m)). }
      assert (Tk : pol (S k) (TQ d b k)).
      { apply (pol_ext _ (fun x => 1 * (TQ d b k x - x ^ k) + 1 * x ^ k)); [intros; ring|]. apply pol_comb; [now apply pol_up|apply X]. }
      apply pol_comb; apply pol_comb.
      * now apply pol_x.
      * now apply pol_up.
      * apply X.
      * now apply pol_up.
Qed.
Lemma prod_monic l : forall n, pol n (fun x => rprod n (fun i => x - l i) - x ^ n).
Proof.
  induction n as [|n IH]; [intros x; cbn [rprod pow]; ring|].
  apply (pol_ext _ (fun x => 1 * (x * (rprod n (fun i => x - l i) - x ^ n)) + - l n * (1 * (rprod n (fun i => x - l i) - x ^ n) + 1 * x ^ n))).
  - intros x. cbn [rprod pow]. ring.
  - apply pol_comb; [now apply pol_x|]. apply pol_comb; [now apply pol_up|].
    clear. induction n as [|m IH]; [exists 1, (fun _ => 0); split; [intros ?; reflexivity|intros; cbn [pow]; ring]|]. now apply (pol_x (S m) (fun x => x ^ m)).
Qed.
Lemma TQ_factor d b n l : (forall i j : nat, (i < j < n)%nat -> l i <> l j) -> (forall i, (i < n)%nat -> TQ d b n (l i) = 0) ->
  forall x, TQ d b n x = rprod n (fun i => x - l i).
Proof.
  intros D Z x. cut (TQ d b n x - rprod n (fun i => x - l i) = 0); [lra|].
  apply (pol_roots n (fun x => TQ d b n x - rprod n (fun i => x - l i)) l); [|exact D|].
  - apply (pol_ext _ (fun x => 1 * (TQ d b n x - x ^ n) + -1 * (rprod n (fun i => x - l i) - x ^ n))); [intros; ring|].
    apply pol_comb; [apply TQ_monic|apply prod_monic].
  - intros i Hi. rewrite Z by assumption. rewrite (rprod_pick n _ i Hi). ring.
Qed.

(** large arguments *)
Lemma TQ_large d b n : exists M, forall x, M <= x -> forall k, (k < n)%nat -> 0 < TQ d b k x /\ TQ d b k x <= TQ d b (S k) x.
Proof.
  induction n as [|n (M & IH)]; [exists 0; intros; lia|].
  exists (Rmax M (1 + Rabs (d n) + b n ^ 2)). intros x Hx k Hk.
  assert (M <= x) by (eapply Rle_trans; [apply Rmax_l|exact Hx]).
  assert (1 + Rabs (d n) + b n ^ 2 <= x) by (eapply Rle_trans; [apply Rmax_r|exact Hx]).
  destruct (Nat.eq_dec k n) as [->|N]; [|apply IH; [assumption|lia]].
  pose proof (Rle_abs (d n)). pose proof (pow2_ge_0 (b n)). pose proof (Rabs_pos (d n)).
  destruct n as [|n]; [cbn [TQ]; lra|].
  destruct (IH x ltac:(assumption) n ltac:(lia)) as [P1 P2]. split; [lra|].
  rewrite TQ_SS. assert (0 < TQ d b (S n) x) by lra.
  assert (b (S n) ^ 2 * TQ d b n x <= b (S n) ^ 2 * TQ d b (S n) x) by (apply Rmult_le_compat_l; lra).
  assert ((1 + b (S n) ^ 2) * TQ d b (S n) x <= (x - d (S n)) * TQ d b (S n) x) by (apply Rmult_le_compat_r; lra). lra.
Qed.
Lemma TQ_neg d b x : forall k, TQ d b k (- x) = (-1) ^ k * TQ (fun i => - d i) b k x.
Proof.
  apply (nat_ind2 (fun k => TQ d b k (- x) = (-1) ^ k * TQ (fun i => - d i) b k x)).
  - cbn [TQ pow]. ring.
  - cbn [TQ pow]. ring.
  - intros k I0 I1. rewrite !TQ_SS, I1, I0. cbn [pow]. ring.
Qed.

(** a sign change contains a root *)
Lemma sign_root f u w : Cts f -> u < w -> f u * f w < 0 -> exists z, u < z < w /\ f z = 0.
Proof.
  intros F H S.
  assert (G : forall g, Cts g -> g u < 0 -> 0 < g w -> exists z, u < z < w /\ g z = 0).
  { intros g G A B. destruct (IVT g u w) as (z & Hz & E); [|exact H|exact A|exact B|].
    - intros x. apply continuity_pt_filterlim. apply G.
    - exists z. split; [|exact E]. split; apply Rnot_le_lt; intros K.
      + replace z with u in E by lra. lra.
      + replace z with w in E by lra. lra. }
  destruct (Rlt_le_dec (f u) 0) as [A|A].
  - apply G; [exact F|exact A|]. nra.
  - destruct (G (fun x => -1 * f x)) as (z & Hz & E); [auto with cts| | |exists z; split; [exact Hz|lra]].
    + assert (f u <> 0) by (intros K; rewrite K in S; lra). lra.
    + assert (f w < 0); [|lra]. assert (0 < f u) by (assert (f u <> 0) by (intros K; rewrite K in S; lra); lra). nra.
Qed.

(** sign of the product between the roots *)
Lemma prod_sign n (l : nat -> R) i x : (i <= n)%nat -> (forall j, (j < i)%nat -> l j < x) -> (forall j, (i <= j < n)%nat -> x < l j) ->
  0 < (-1) ^ (n - i) * rprod n (fun j => x - l j).
Proof.
  intros Hi A B. induction n as [|n IH].
  - cbn. lra.
  - destruct (Nat.eq_dec i (S n)) as [->|N].
    + rewrite Nat.sub_diag. cbn [pow]. rewrite Rmult_1_l.
      assert (G : forall m, (m <= S n)%nat -> 0 < rprod m (fun j => x - l j)).
      { induction m as [|m IHm]; intros Hm; cbn [rprod]; [lra|]. apply Rmult_lt_0_compat; [apply IHm; lia|]. specialize (A m ltac:(lia)). lra. }
      apply G. lia.
    + replace (S n - i)%nat with (S (n - i)) by lia. cbn [rprod pow]. specialize (IH ltac:(lia) ltac:(intros; apply B; lia)).
      specialize (B n ltac:(lia)). replace (-1 * (-1) ^ (n - i) * (rprod n (fun j => x - l j) * (x - l n)))
        with ((-1) ^ (n - i) * rprod n (fun j => x - l j) * (l n - x)) by ring. apply Rmult_lt_0_compat; lra.
Qed.

Lemma pow_m1 k : (-1) ^ k = 1 \/ (-1) ^ k = -1.
Proof. induction k as [|k [IH|IH]]; cbn [pow]; [left; reflexivity|right|left]; rewrite IH; ring. Qed.
Lemma pow_m1_sq k : (-1) ^ k * (-1) ^ k = 1.
Proof. destruct (pow_m1 k) as [-> | ->]; ring. Qed.

(** choice over the first n numbers *)
Lemma choose_n (P : nat -> R -> Prop) n : (forall i, (i < n)%nat -> exists z, P i z) -> exists f, forall i, (i < n)%nat -> P i (f i).
Proof.
  induction n as [|n IH]; intros H; [exists (fun _ => 0); intros; lia|].
  destruct IH as (f & F); [intros; apply H; lia|]. destruct (H n) as (z & Z); [lia|].
  exists (fun i => if Nat.eqb i n then z else f i). intros i Hi. destruct (Nat.eqb_spec i n) as [->|N]; [exact Z|apply F; lia].
Qed.

(** n different real roots; the roots of TQ_n and TQ_{n+1} interlace *)
Lemma interlace d b N : (forall k, (1 <= k < N)%nat -> b k <> 0) -> forall n, (n < N)%nat ->
  exists l m : nat -> R,
    (forall i, (i < n)%nat -> TQ d b n (l i) = 0) /\ (forall i, (i < S n)%nat -> TQ d b (S n) (m i) = 0)
    /\ (forall i, (i < n)%nat -> m i < l i < m (S i)).
Proof.
  intros Hb. induction n as [|n IH]; intros Hn.
  - exists (fun _ => 0), (fun _ => d 0%nat). split; [intros; lia|]. split; [intros; cbn [TQ]; ring|]. intros; lia.
  - destruct (IH ltac:(lia)) as (l & m & L & M & I). clear IH.
    exists m.
    (* the roots are increasing *)
    assert (Im : forall i j, (i < j < S n)%nat -> m i < m j).
    { intros i j. induction j as [|j IHj]; intros H; [lia|]. destruct (I j ltac:(lia)). destruct (Nat.eq_dec i j) as [->|]; [lra|]. specialize (IHj ltac:(lia)). lra. }
    assert (Il : forall i j, (i < j < n)%nat -> l i < l j).
    { intros i j H. destruct (I i ltac:(lia)) as [_ A]. destruct (I j ltac:(lia)) as [B _].
      destruct (Nat.eq_dec (S i) j) as [<-|]; [lra|]. specialize (Im (S i) j ltac:(lia)). lra. }
    assert (Fl : forall x, TQ d b n x = rprod n (fun i => x - l i)).
    { apply TQ_factor; [|exact L]. intros i j H. specialize (Il i j H). lra. }
    (* sign of TQ_n, hence of TQ_{n+2}, at m i *)
    assert (Sg : forall i, (i < S n)%nat -> (-1) ^ (n - i) * TQ d b (S (S n)) (m i) < 0).
    { intros i Hi. assert (P : 0 < (-1) ^ (n - i) * TQ d b n (m i)).
      { rewrite Fl. apply prod_sign; [lia| |].
        - intros j Hj. destruct (I j ltac:(lia)) as [_ A]. destruct (Nat.eq_dec (S j) i) as [<-|]; [exact A|]. specialize (Im (S j) i ltac:(lia)). lra.
        - intros j Hj. destruct (I j ltac:(lia)) as [A _]. destruct (Nat.eq_dec i j) as [<-|]; [exact A|]. specialize (Im i j ltac:(lia)). lra. }
      rewrite TQ_SS, M by assumption. assert (B : 0 < b (S n) ^ 2) by (apply pow2_gt_0, Hb; lia).
      replace (_ * _) with (- (b (S n) ^ 2 * ((-1) ^ (n - i) * TQ d b n (m i)))) by ring. pose proof (Rmult_lt_0_compat _ _ B P). lra. }
    (* far to the right and to the left *)
    destruct (TQ_large d b (S (S (S n)))) as (B1 & HB1). destruct (TQ_large (fun i => - d i) b (S (S (S n)))) as (B2 & HB2).
    set (hi := Rmax B1 (m n) + 1). set (lo := - (Rmax B2 (- m 0%nat) + 1)).
    assert (H1 : m n < hi) by (unfold hi; pose proof (Rmax_r B1 (m n)); lra).
    assert (H2 : lo < m 0%nat) by (unfold lo; pose proof (Rmax_r B2 (- m 0%nat)); lra).
    assert (S1 : 0 < TQ d b (S (S n)) hi).
    { apply (HB1 hi); [unfold hi; pose proof (Rmax_l B1 (m n)); lra|lia]. }
    assert (S2 : 0 < (-1) ^ S (S n) * TQ d b (S (S n)) lo).
    { unfold lo. rewrite TQ_neg. rewrite <- Rmult_assoc, pow_m1_sq, Rmult_1_l. apply HB2; [pose proof (Rmax_l B2 (- m 0%nat)); lra|lia]. }
    destruct (choose_n (fun i z => TQ d b (S (S n)) z = 0
        /\ (match i with O => lo | S i' => m i' end) < z < (if Nat.ltb i (S n) then m i else hi)) (S (S n))) as (q & Hq).
    { intros i Hi. destruct (sign_root (TQ d b (S (S n))) (match i with O => lo | S i' => m i' end) (if Nat.ltb i (S n) then m i else hi)) as (z & Hz & Ez).
      - auto with cts.
      - destruct i as [|i]; destruct (Nat.ltb_spec 0 (S n)); try lia; try assumption.
        destruct (Nat.ltb_spec (S i) (S n)); [apply Im; lia|]. replace i with n by lia. exact H1.
      - destruct i as [|i].
        + destruct (Nat.ltb_spec 0 (S n)); [|lia]. pose proof (Sg 0%nat ltac:(lia)) as X. rewrite Nat.sub_0_r in X.
          cbn [pow] in S2. destruct (pow_m1 n) as [E|E]; rewrite E in X, S2; nra.
        + destruct (Nat.ltb_spec (S i) (S n)).
          * pose proof (Sg i ltac:(lia)) as X. pose proof (Sg (S i) ltac:(lia)) as Y.
            replace (n - i)%nat with (S (n - S i)) in X by lia. cbn [pow] in X. destruct (pow_m1 (n - S i)) as [E|E]; rewrite E in X, Y; nra.
          * pose proof (Sg i ltac:(lia)) as X. replace (n - i)%nat with 0%nat in X by lia. cbn [pow] in X. nra.
      - exists z. split; assumption. }
    exists q. split; [exact M|]. split; [intros i Hi; now apply Hq|].
    intros i Hi. destruct (Hq i ltac:(lia)) as (_ & _ & A). destruct (Hq (S i) ltac:(lia)) as (_ & B & _).
    destruct (Nat.ltb_spec i (S n)); [|lia]. split; assumption.
Qed.

Lemma real_roots d b n : (forall k, (1 <= k < n)%nat -> b k <> 0) -> exists l : nat -> R,
  (forall i j, (i < j < n)%nat -> l i < l j) /\ (forall i, (i < n)%nat -> TQ d b n (l i) = 0).
Proof.
  intros Hb. destruct n as [|n]; [exists (fun _ => 0); split; intros; lia|].
  destruct (interlace d b (S n) Hb n ltac:(lia)) as (l & m & _ & M & I). exists m. split; [|exact M].
  intros i j. induction j as [|j IHj]; intros H; [lia|]. destruct (I j ltac:(lia)). destruct (Nat.eq_dec i j) as [->|]; [lra|]. specialize (IHj ltac:(lia)). lra.
Qed.

(** the eigenvector of a root *)
Lemma root_eigvec n d b J l : tridiag n d b J -> (forall k, (1 <= k < n)%nat -> b k <> 0) -> TQ d b n l = 0 ->
  forall k, (k < n)%nat -> mvec n J (fun k => TQ d b k l / beta b k) k = l * (TQ d b k l / beta b k).
Proof.
  intros T Hb Z k Hk. rewrite (tri_row n d b J T) by assumption. pose proof (beta_nz b n Hb) as Nz.
  assert (E : (if Nat.ltb (S k) n then b (S k) * (TQ d b (S k) l / beta b (S k)) else 0) = TQ d b (S k) l / beta b k).
  { destruct (Nat.ltb_spec (S k) n) as [H|H].
    - change (beta b (S k)) with (beta b k * b (S k)). field. split; [apply Nz; lia|apply Hb; lia].
    - replace (S k) with n by lia. rewrite Z. unfold Rdiv. ring. }
  rewrite E. destruct k as [|k].
  - cbn [TQ beta]. field.
  - rewrite TQ_SS. change (beta b (S k)) with (beta b k * b (S k)). field. split; [apply Hb; lia|apply Nz; lia].
Qed.

Theorem contract_met n d b J : (1 <= n)%nat -> tridiag n d b J -> (forall k, (1 <= k < n)%nat -> b k <> 0) -> exists e, eigenvectors_of n J e.
Proof.
  intros Hn T Hb. destruct (real_roots d b n Hb) as (l & I & Z).
  set (q := fun i k => TQ d b k (l i) / beta b k).
  set (nr := fun i => rsum n (fun k => q i k * q i k)).
  assert (P : forall i, 0 < nr i).
  { intros i. unfold nr. destruct n as [|n']; [lia|]. rewrite rsum_shift. unfold q at 1 2. cbn [TQ beta].
    pose proof (rsum_nonneg n' (fun k => q i (S k) * q i (S k)) ltac:(intros; nra)). lra. }
  exists {| eg_re := l; eg_im := fun _ => 0; eg_vec := fun i k => q i k / sqrt (nr i) |}.
  assert (Ev : forall i, (i < n)%nat -> forall k, (k < n)%nat -> mvec n J (q i) k = l i * q i k).
  { intros i Hi k Hk. now apply (root_eigvec n d b J (l i) T Hb (Z i Hi)). }
  split; cbn [eg_re eg_im eg_vec].
  - intros i Hi. exists (q i), (fun _ => 0). split; [|split].
    + exists 0%nat. split; [lia|]. left. unfold q. cbn [TQ beta]. lra.
    + intros k Hk. rewrite Ev by assumption. ring.
    + intros k Hk. unfold mvec. rewrite rsum_0 by (intros; ring). ring.
  - intros i Hi _. assert (Sq : sqrt (nr i) <> 0) by (apply Rgt_not_eq, sqrt_lt_R0, P). split.
    + intros k Hk. unfold mvec. rewrite (rsum_ext n _ (fun j => / sqrt (nr i) * (J k j * q i j))) by (intros; field; exact Sq).
      rewrite rsum_scal. fold (mvec n J (q i) k). rewrite Ev by assumption. field. exact Sq.
    + rewrite (rsum_ext n _ (fun k => / nr i * (q i k * q i k))).
      * rewrite rsum_scal. fold (nr i). field. apply Rgt_not_eq, P.
      * intros k _. pose proof (sqrt_sqrt (nr i) (Rlt_le _ _ (P i))) as E.
        replace (/ nr i) with (/ (sqrt (nr i) * sqrt (nr i))) by now rewrite E. field. exact Sq.
  - intros _ x. rewrite <- (TQ_factor d b n l).
    + rewrite <- det_tri. apply detR_ext. intros i j Hi Hj. unfold triM, mone. rewrite (T i j) by assumption.
      destruct (Nat.eqb_spec i j); [ring|]. destruct (Nat.eqb_spec (S i) j); [ring|]. destruct (Nat.eqb_spec i (S j)); ring.
    + intros i j H. specialize (I i j H). lra.
    + exact Z.
Qed.
