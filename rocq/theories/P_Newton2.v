(** Gauss-Newton steps of MultiLinearGeometry::local near a solution, any geometry. *)
From Coq Require Import PeanoNat NArith Lia Bool List Reals Lra FunctionalExtensionality.
From Verif Require Import M_Type M_RefTopo M_RefGeo M_Matrix M_MultiLinear S_Topo S_RefGeo S_Matrix S_MultiLinear P_RSum
  P_Matrix2 P_Matrix4 P_Matrix5 P_ML5 P_GaussNewton T_Matrix T_MultiLinear P_Newton.
Import ListNotations.
Local Open Scope R_scope.

Lemma cauchy_schwarz n (a b : Vec) : rsum n (fun i => a i * b i) * rsum n (fun i => a i * b i) <= norm2 n a * norm2 n b.
Proof.
  unfold norm2. induction n as [|n IH]; cbn [rsum]; [lra|].
  set (S := rsum n (fun i => a i * b i)) in *. set (A := rsum n (fun i => a i * a i)) in *. set (B := rsum n (fun i => b i * b i)) in *.
  assert (0 <= A) by (apply rsum_nonneg; intros; apply Rle_0_sqr). assert (0 <= B) by (apply rsum_nonneg; intros; apply Rle_0_sqr).
  generalize (a n) (b n). intros x y.
  assert (K : 2 * (S * (x * y)) <= A * (y * y) + B * (x * x)).
  { apply Rsqr_incr_0_var; unfold Rsqr.
    - assert (0 <= x * x) by apply Rle_0_sqr. assert (0 <= y * y) by apply Rle_0_sqr.
      assert (S * S * (x * x * (y * y)) <= A * B * (x * x * (y * y))) by (apply Rmult_le_compat_r; [apply Rmult_le_pos; assumption|exact IH]).
      assert (0 <= (A * (y * y) - B * (x * x)) * (A * (y * y) - B * (x * x))) by apply Rle_0_sqr.
      replace (2 * (S * (x * y)) * (2 * (S * (x * y)))) with (4 * (S * S * (x * x * (y * y)))) by ring.
      replace ((A * (y * y) + B * (x * x)) * (A * (y * y) + B * (x * x))) with ((A * (y * y) - B * (x * x)) * (A * (y * y) - B * (x * x)) + 4 * (A * B * (x * x * (y * y)))) by ring. lra.
    - assert (0 <= x * x) by apply Rle_0_sqr. assert (0 <= y * y) by apply Rle_0_sqr. apply Rplus_le_le_0_compat; apply Rmult_le_pos; assumption. }
  lra.
Qed.
Definition nrm (n : nat) (x : Vec) : R := sqrt (norm2 n x).
Lemma nrm_nonneg n x : 0 <= nrm n x. Proof. apply sqrt_pos. Qed.
Lemma nrm_sq n x : nrm n x * nrm n x = norm2 n x. Proof. apply sqrt_sqrt, norm2_nonneg. Qed.
Lemma nrm_ext n x y : veq n x y -> nrm n x = nrm n y.
Proof. intro H. unfold nrm, norm2. f_equal. apply rsum_ext. intros i Hi. now rewrite (H i Hi). Qed.
Lemma nrm_le n x a : 0 <= a -> norm2 n x <= a * a -> nrm n x <= a.
Proof. intros Ha H. unfold nrm. rewrite <- (sqrt_Rsqr a Ha). now apply sqrt_le_1_alt. Qed.
Lemma nrm_dot n a b : Rabs (rsum n (fun i => a i * b i)) <= nrm n a * nrm n b.
Proof.
  unfold nrm. rewrite <- sqrt_mult by apply norm2_nonneg. rewrite <- sqrt_Rsqr_abs. apply sqrt_le_1_alt. apply cauchy_schwarz.
Qed.
Lemma nrm_add n a b : nrm n (fun k => a k + b k) <= nrm n a + nrm n b.
Proof.
  apply nrm_le; [assert (A := nrm_nonneg n a); assert (B := nrm_nonneg n b); lra|].
  replace (norm2 n (fun k => a k + b k)) with (norm2 n a + norm2 n b + 2 * rsum n (fun i => a i * b i)).
  - assert (D := nrm_dot n a b). assert (D' := Rle_abs (rsum n (fun i => a i * b i))). rewrite <- (nrm_sq n a), <- (nrm_sq n b). lra.
  - unfold norm2. rewrite <- rsum_scal, <- !rsum_plus. apply rsum_ext. intros. ring.
Qed.
Lemma nrm_scal n c a : nrm n (fun k => c * a k) = Rabs c * nrm n a.
Proof.
  unfold nrm. replace (norm2 n (fun k => c * a k)) with (Rsqr c * norm2 n a).
  - rewrite sqrt_mult_alt by apply Rle_0_sqr. now rewrite sqrt_Rsqr_abs.
  - unfold norm2, Rsqr. rewrite <- rsum_scal. apply rsum_ext. intros. ring.
Qed.
Lemma nrm_opp n a : nrm n (fun k => - a k) = nrm n a.
Proof. unfold nrm, norm2. f_equal. apply rsum_ext. intros. ring. Qed.
Lemma nrm_0 n a : nrm n a = 0 -> forall i, (i < n)%nat -> a i = 0.
Proof.
  intros H i Hi. assert (Q : norm2 n a = 0) by (rewrite <- nrm_sq, H; ring). unfold norm2 in Q.
  assert (T := rsum_term n (fun i => a i * a i) i ltac:(intros; apply Rle_0_sqr) Hi). cbv beta in T. assert (0 <= a i * a i) by apply Rle_0_sqr. apply Rsqr_0_uniq. unfold Rsqr. lra.
Qed.

(** the projection does not lengthen *)
Lemma proj_bound m n A w rho : veq m (mvec n A (fun k => mvec m (mtr A) w k + rho k)) vzero -> nrm n (mvec m (mtr A) w) <= nrm n rho.
Proof.
  intro H. set (a := mvec m (mtr A) w).
  assert (Z : rsum n (fun k => a k * (a k + rho k)) = 0).
  { rewrite (rsum_ext n _ (fun k => rsum m (fun i => w i * (A i k * (a k + rho k))))).
    - rewrite rsum_swap. rewrite (rsum_ext m _ (fun _ => 0 * 0)); [rewrite rsum_scal; ring|]. intros i Hi. rewrite rsum_scal. assert (Q := H i Hi). unfold mvec at 1, vzero in Q. fold a in Q. rewrite Q. ring.
    - intros k Hk. rewrite (rsum_ext m _ (fun i => (a k + rho k) * (A i k * w i))) by (intros; ring). rewrite rsum_scal. unfold a at 1, mvec, mtr. ring. }
  assert (E : norm2 n a = - rsum n (fun k => a k * rho k)).
  { assert (norm2 n a + rsum n (fun k => a k * rho k) = 0); [|lra]. rewrite <- Z. unfold norm2. rewrite <- rsum_plus. apply rsum_ext. intros. ring. }
  assert (D := nrm_dot n a rho). assert (D' := Rle_abs (- rsum n (fun k => a k * rho k))). rewrite Rabs_Ropp in D'. rewrite <- E, <- nrm_sq in D'.
  assert (NA := nrm_nonneg n a). destruct (Req_dec (nrm n a) 0) as [Q|Q]; [rewrite Q; apply nrm_nonneg|].
  apply (Rmult_le_reg_l (nrm n a)); lra.
Qed.

Section Local.
Variables (mydim cdim : nat) (tol : R) (jv : Vec) (jm jk j1 j2 : Mat) (g : MLGeo) (y xs : Vec) (r beta K : R).
Hypothesis (Hd : (mydim <= cdim)%nat) (Hb : 0 <= beta) (HK : 0 <= K) (Hr : 0 <= r) (Ht : 0 <= tol) (Hq : beta * K * r < 1).
Notation err x := (nrm mydim (fun k => x k - xs k)).
Hypothesis HX : forall x, err x <= r -> exists G J, mlg_global mydim cdim tol jv g x = Some G /\ mlg_jacobianTransposed mydim cdim tol jm jk g x = Some J /\
  (forall z, nrm mydim z <= beta * nrm cdim (mvec mydim (mtr J) z)) /\
  nrm cdim (fun k => G k - y k - mvec mydim (mtr J) (fun j => x j - xs j) k) <= K * norm2 mydim (fun j => x j - xs j).

Lemma local_step x : err x <= r -> exists dx, ml_step mydim cdim tol jv jm jk j1 j2 g y x = Some (true, dx) /\
  err (fun k => x k - dx k) <= beta * K * (err x * err x).
Proof.
  intro Hx. destruct (HX x Hx) as (G & J & EG & EJ & LB & TB). unfold ml_step. rewrite EG. cbn [obind]. rewrite EJ. cbn [obind].
  assert (HR : row_independent mydim cdim J).
  { intros v Hv. apply nrm_0. apply Rle_antisym; [|apply nrm_nonneg]. eapply Rle_trans; [apply LB|].
    replace (nrm cdim (mvec mydim (mtr J) v)) with (nrm cdim vzero) by (apply nrm_ext; intros k Hk; rewrite Hv by assumption; reflexivity).
    right. unfold nrm, norm2, vzero. rewrite (rsum_scal cdim 0 (fun _ => 0)), Rmult_0_l, sqrt_0. ring. }
  destruct (proj1 (C25_xTRightInvA mydim cdim J (fun k => G k - y k) j1 j2 Hd) HR) as (dx & E & NE & _). exists dx. split; [exact E|].
  set (rho := fun k => G k - y k - mvec mydim (mtr J) (fun j => x j - xs j) k) in *.
  eapply Rle_trans; [apply LB|]. rewrite Rmult_assoc. apply Rmult_le_compat_l; [exact Hb|]. rewrite nrm_sq. eapply Rle_trans; [|exact TB].
  apply proj_bound. intros i Hi. unfold vzero. assert (Q := NE i Hi). rewrite mvec_mmul in Q.
  assert (L : forall k, mvec mydim (mtr J) (fun k => x k - dx k - xs k) k = mvec mydim (mtr J) (fun j => x j - xs j) k - mvec mydim (mtr J) dx k).
  { intro k. unfold mvec. rewrite <- rsum_minus. apply rsum_ext. intros. ring. }
  transitivity (mvec cdim J (fun k => G k - y k) i - mvec cdim J (mvec mydim (mtr J) dx) i); [|rewrite Q; ring].
  unfold mvec at 1 3 4. rewrite <- rsum_minus.
  apply rsum_ext. intros k Hk. cbv beta. rewrite L. unfold rho. ring.
Qed.

Lemma local_stop x dx : err x <= r -> err (fun k => x k - dx k) <= beta * K * (err x * err x) -> norm2 mydim dx <= tol ->
  err (fun k => x k - dx k) * (1 - beta * K * r) ^ 2 <= beta * K * tol.
Proof.
  intros Hx HE HN. set (e := err x) in *. set (e' := err (fun k => x k - dx k)) in *. assert (P : 0 <= e) by apply nrm_nonneg. assert (Hbk : 0 <= beta * K) by (apply Rmult_le_pos; assumption).
  assert (N : nrm mydim dx <= sqrt tol) by (unfold nrm; now apply sqrt_le_1_alt).
  assert (T : e <= nrm mydim dx + e').
  { unfold e, e'. eapply Rle_trans; [|apply nrm_add]. right. apply nrm_ext. intros k Hk. ring. }
  set (q := beta * K * r) in *. assert (E1 : e' <= q * e) by (unfold q; eapply Rle_trans; [exact HE|]; replace (beta * K * r * e) with (beta * K * (r * e)) by ring; apply Rmult_le_compat_l; [exact Hbk|]; apply Rmult_le_compat_r; assumption).
  assert (E2 : e * (1 - q) <= sqrt tol) by lra.
  assert (E3 : (e * (1 - q)) * (e * (1 - q)) <= tol).
  { rewrite <- (sqrt_sqrt tol Ht). apply Rmult_le_compat; try assumption; apply Rmult_le_pos; lra. }
  replace (e' * (1 - q) ^ 2) with (e' * ((1 - q) * (1 - q))) by ring. eapply Rle_trans; [apply Rmult_le_compat_r; [apply Rle_0_sqr|exact HE]|].
  replace (beta * K * (e * e) * ((1 - q) * (1 - q))) with (beta * K * (e * (1 - q) * (e * (1 - q)))) by ring. now apply Rmult_le_compat_l.
Qed.

Lemma local_loop n : forall x rho, err x <= rho -> rho <= r -> 4 * rho ^ 2 * (beta * K * rho) ^ (2 * (2 ^ n - 1)) <= tol ->
  exists z, ml_newton mydim cdim tol jv jm jk j1 j2 (S n) g false y x = Done (LocPt z) /\ err z * (1 - beta * K * r) ^ 2 <= beta * K * tol.
Proof.
  assert (Hbk : 0 <= beta * K) by (apply Rmult_le_pos; assumption).
  induction n as [|n IH]; intros x rho Hx Hrho HT; destruct (local_step x ltac:(lra)) as (dx & E & HE); assert (P := nrm_nonneg mydim (fun k => x k - xs k)).
  - cbn [ml_newton]. rewrite E. assert (HN : norm2 mydim dx <= tol).
    { cbn in HT. rewrite <- nrm_sq. apply Rle_trans with ((2 * rho) * (2 * rho)); [|lra].
      assert (T : nrm mydim dx <= nrm mydim (fun k => x k - xs k) + nrm mydim (fun k => x k - dx k - xs k)).
      { rewrite <- (nrm_opp mydim (fun k => x k - dx k - xs k)). eapply Rle_trans; [|apply nrm_add]. right. apply nrm_ext. intros k Hk. ring. }
      set (e := nrm mydim (fun k => x k - xs k)) in *.
      assert (beta * K * (e * e) <= e).
      { replace (beta * K * (e * e)) with (beta * K * e * e) by ring. assert (beta * K * e <= beta * K * r) by (apply Rmult_le_compat_l; lra). assert (beta * K * e * e <= 1 * e) by (apply Rmult_le_compat_r; lra). lra. }
      assert (0 <= nrm mydim dx) by apply nrm_nonneg. apply Rmult_le_compat; lra. }
    rewrite rltb_le by exact HN. eexists. split; [reflexivity|]. apply local_stop; auto. lra.
  - remember (S n) as m. cbn [ml_newton]. rewrite E. destruct (Rltb tol (norm2 mydim dx)) eqn:L.
    + subst m. apply (IH _ (beta * K * (rho * rho))).
      * eapply Rle_trans; [exact HE|]. apply Rmult_le_compat_l; [exact Hbk|]. apply Rmult_le_compat; lra.
      * replace (beta * K * (rho * rho)) with (beta * K * rho * rho) by ring. assert (beta * K * rho <= beta * K * r) by (apply Rmult_le_compat_l; lra). assert (0 <= beta * K * rho) by (apply Rmult_le_pos; lra). assert (beta * K * rho * rho <= 1 * rho) by (apply Rmult_le_compat_r; lra). lra.
      * eapply Rle_trans; [|exact HT]. right. set (q := beta * K * rho).
        replace (beta * K * (rho * rho)) with (q * rho) by (unfold q; ring). replace (beta * K * (q * rho)) with (q ^ 2) by (unfold q; ring).
        rewrite <- pow_mult. assert (1 <= 2 ^ n)%nat by (clear; induction n; cbn; lia).
        replace (2 * (2 ^ S n - 1))%nat with (2 + 2 * (2 * (2 ^ n - 1)))%nat by (rewrite Nat.pow_succ_r'; lia). rewrite pow_add. ring.
    + eexists. split; [reflexivity|]. apply local_stop; [lra|exact HE|]. destruct (Rle_lt_dec (norm2 mydim dx) tol) as [|Q]; [assumption|]. apply Rltb_true in Q. congruence.
Qed.
End Local.
