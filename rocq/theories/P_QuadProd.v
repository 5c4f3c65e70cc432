(** Tensor and conical products of quadrature rules. *)
From Coq Require Import NArith ZArith PeanoNat Bool List Reals Lia Lra FunctionalExtensionality.
From Coquelicot Require Import Coquelicot.
From Verif Require Import M_RefGeo M_Quadrature S_Topo P_Topo S_RefGeo S_Quad1D S_QuadND P_RefGeo2 P_QuadFix P_RefVol.
Import ListNotations.
Local Open Scope R_scope.

(** ** Quadrature sums *)
Lemma quad_ext pts f g : (forall x, f x = g x) -> quad pts f = quad pts g.
Proof. intros H. induction pts as [|q pts IH]; cbn [quad]; [reflexivity|]. now rewrite IH, H. Qed.
Lemma quad_app a b f : quad (a ++ b) f = quad a f + quad b f.
Proof. induction a as [|q a IH]; cbn [quad app]; [lra|]. rewrite IH. ring. Qed.
Lemma quad_scal pts c f : quad pts (fun x => c * f x) = c * quad pts f.
Proof. induction pts as [|q pts IH]; cbn [quad]; [ring|]. rewrite IH. ring. Qed.
Lemma quad_plus pts f g : quad pts (fun x => f x + g x) = quad pts f + quad pts g.
Proof. induction pts as [|q pts IH]; cbn [quad]; [ring|]. rewrite IH. ring. Qed.
Lemma quad_map pts (g : QPoint -> QPoint) f : quad (map g pts) f = quad pts f + (quad (map g pts) f - quad pts f).
Proof. ring. Qed.

Lemma quad_tensor d base oned f g h :
  (forall x y, f (fun k => if Nat.eqb k d then y else x k) = g x * h y) ->
  quad (tensorProduct d base oned) f = quad base g * quad oned (fun y => h (y 0%nat)).
Proof.
  intros H. unfold tensorProduct. induction base as [|b base IH]; cbn [flat_map quad]; [ring|].
  rewrite quad_app, IH. rewrite Rmult_plus_distr_r. f_equal. clear IH.
  induction oned as [|o oned IH]; cbn [map quad]; [ring|]. rewrite IH. cbn [fst snd]. rewrite H. unfold QPoint, Vec in *. ring.
Qed.

Lemma iter_mul n s w : Nat.iter n (fun w => w * s) w = w * s ^ n.
Proof.
  induction n as [|n IH]; [simpl; ring|].
  change (Nat.iter (S n) (fun w => w * s) w) with (Nat.iter n (fun w => w * s) w * s). rewrite IH. simpl. ring.
Qed.

Lemma quad_conical d (respect : bool) base oned f g h :
  (forall x z, f (fun k => if Nat.eqb k d then z else (1 - z) * x k) = g x * h z) ->
  quad (conicalProduct d respect base oned) f
  = quad base g * quad oned (fun y => (1 - y 0%nat) ^ (if respect then 0 else d) * h (y 0%nat)).
Proof.
  intros H. unfold conicalProduct. induction base as [|b base IH]; cbn [flat_map quad]; [ring|].
  rewrite quad_app, IH. rewrite Rmult_plus_distr_r. f_equal. clear IH.
  induction oned as [|o oned IH]; cbn [map quad]; [ring|]. rewrite IH. cbn [fst snd]. rewrite H. unfold QPoint, Vec in *.
  destruct respect; [simpl; ring|]. rewrite iter_mul. ring.
Qed.

(** ** Monomials *)
Lemma monomial_mono n e x : monomial n e x = mono n e x.
Proof. induction n as [|n IH]; cbn; [reflexivity|]. now rewrite IH. Qed.
Lemma degree_degsum n e : degree n e = degsum n e.
Proof. induction n as [|n IH]; cbn; [reflexivity|]. now rewrite IH. Qed.

Lemma monomial_ext n e x y : (forall k, (k < n)%nat -> x k = y k) -> monomial n e x = monomial n e y.
Proof. intros H. rewrite !monomial_mono. apply mono_ext; auto. Qed.
Lemma monomial_scale n e s x : monomial n e (fun k => s * x k) = s ^ degree n e * monomial n e x.
Proof. rewrite !monomial_mono, degree_degsum. apply mono_scale. Qed.

Lemma mono_split d e x y : monomial (S d) e (fun k => if Nat.eqb k d then y else x k) = monomial d e x * y ^ e d.
Proof.
  cbn [monomial]. rewrite Nat.eqb_refl. f_equal. apply monomial_ext. intros k Hk.
  destruct (Nat.eqb_spec k d); [lia|reflexivity].
Qed.
Lemma mono_split_c d e x z : monomial (S d) e (fun k => if Nat.eqb k d then z else (1 - z) * x k)
  = monomial d e x * ((1 - z) ^ degree d e * z ^ e d).
Proof.
  cbn [monomial]. rewrite Nat.eqb_refl. rewrite (monomial_ext d e _ (fun k => (1 - z) * x k)).
  - rewrite monomial_scale. ring.
  - intros k Hk. destruct (Nat.eqb_spec k d); [lia|reflexivity].
Qed.

(** ** Exact moments *)
Definition bmom (alpha a b : nat) : R := RInt (fun t => omega alpha t * ((1 - t) ^ a * t ^ b)) 0 1.

Lemma ex_bmom alpha a b : ex_RInt (fun t => omega alpha t * ((1 - t) ^ a * t ^ b)) 0 1.
Proof.
  apply (ex_RInt_continuous (V := R_CompleteNormedModule)). intros z _.
  apply (ex_derive_continuous (V := R_NormedModule)). unfold omega. auto_derive. auto.
Qed.

Lemma bmom_Beta alpha a b : bmom alpha a b = 2 ^ alpha * Beta (a + alpha) b.
Proof.
  unfold bmom. rewrite (RInt_ext _ (fun t => 2 ^ alpha * ((1 - t) ^ (a + alpha) * t ^ b))).
  - apply RInt_cBeta.
  - intros t _. unfold omega. rewrite Rpow_mult_distr, pow_add. toR_. ring.
Qed.

Fixpoint momW (alpha : nat) (T : Topo) (e : nat -> nat) : R :=
  match T with
  | Pt => 1
  | Pri b => momW alpha b e * bmom alpha 0 (e (tdim b))
  | Pyr b => momW alpha b e * bmom alpha (tdim b + degree (tdim b) e) (e (tdim b))
  end.

Lemma IintW_ext alpha T f g : (forall x, f x = g x) -> IintW alpha T f = IintW alpha T g.
Proof. intros H. replace g with f by (now apply functional_extensionality). reflexivity. Qed.

(** the slices of a polynomial are polynomials, with coefficients that depend on t *)
Definition sliceP (d : nat) (t : R) (P : MPoly) : MPoly := map (fun ce => (fst ce * t ^ snd ce d, snd ce)) P.
Definition sliceC (d : nat) (t : R) (P : MPoly) : MPoly :=
  map (fun ce => (fst ce * ((1 - t) ^ degree d (snd ce) * t ^ snd ce d), snd ce)) P.

Lemma peval_sliceP d t P x : peval (S d) P (fun k => if Nat.eqb k d then t else x k) = peval d (sliceP d t P) x.
Proof.
  induction P as [|[c e] P IH]; cbn [peval sliceP map fst snd]; [reflexivity|].
  rewrite mono_split. fold (sliceP d t P). rewrite IH. ring.
Qed.
Lemma peval_sliceC d t P x : peval (S d) P (fun k => if Nat.eqb k d then t else (1 - t) * x k) = peval d (sliceC d t P) x.
Proof.
  induction P as [|[c e] P IH]; cbn [peval sliceC map fst snd]; [reflexivity|].
  rewrite mono_split_c. fold (sliceC d t P). rewrite IH. ring.
Qed.

(** the integral of a polynomial is the sum of its moments *)
Fixpoint pmom (m : (nat -> nat) -> R) (P : MPoly) : R :=
  match P with [] => 0 | (c, e) :: P' => c * m e + pmom m P' end.

Lemma is_RInt_zero : is_RInt (fun _ : R => 0) 0 1 0.
Proof.
  pose proof (is_RInt_const (V := R_NormedModule) 0 1 0) as H.
  assert (E : @scal R_AbsRing R_NormedModule (1 - 0) 0 = 0) by (unfold scal; simpl; unfold mult; simpl; ring).
  apply (eq_ind _ (fun l => is_RInt (fun _ : R => 0) 0 1 l) H 0 E).
Qed.

Lemma RInt_pmom (P : MPoly) (m : (nat -> nat) -> R) (w : R -> (nat -> nat) -> R) (I : (nat -> nat) -> R) :
  (forall e, is_RInt (fun t => w t e) 0 1 (I e)) ->
  is_RInt (fun t => pmom m (map (fun ce => (fst ce * w t (snd ce), snd ce)) P)) 0 1 (pmom (fun e => m e * I e) P).
Proof.
  intros H. induction P as [|[c e] P IH]; cbn [map pmom fst snd].
  - exact is_RInt_zero.
  - apply (is_RInt_ext (fun t => (c * m e) * w t e + 1 * pmom m (map (fun ce => (fst ce * w t (snd ce), snd ce)) P))).
    + intros t _. toR_. ring.
    + replace (c * (m e * I e) + pmom (fun e => m e * I e) P) with ((c * m e) * I e + 1 * pmom (fun e => m e * I e) P) by ring.
      apply is_RInt_lin2; [apply H|exact IH].
Qed.

Lemma is_RInt_bmom alpha a b : is_RInt (fun t => omega alpha t * ((1 - t) ^ a * t ^ b)) 0 1 (bmom alpha a b).
Proof. apply (RInt_correct (V := R_CompleteNormedModule)). apply ex_bmom. Qed.

Lemma pmom_scal m s P : s * pmom m P = pmom m (map (fun ce => (s * fst ce, snd ce)) P).
Proof. induction P as [|[c e] P IH]; cbn [map pmom fst snd]; [ring|]. rewrite <- IH. ring. Qed.

Lemma IintW_peval alpha T : forall P, IintW alpha T (peval (tdim T) P) = pmom (momW alpha T) P.
Proof.
  induction T as [|b IH|b IH]; intros P; cbn [IintW tdim].
  - induction P as [|[c e] P IHP]; cbn [peval pmom monomial momW]; [reflexivity|]. rewrite IHP. reflexivity.
  - rewrite (RInt_ext _ (fun t => pmom (momW alpha b) (map (fun ce => (fst ce * (omega alpha t * ((1 - t) ^ 0 * t ^ snd ce (tdim b))), snd ce)) P))).
    + change (pmom (momW alpha (Pri b)) P) with (pmom (fun e => momW alpha b e * bmom alpha 0 (e (tdim b))) P).
      apply is_RInt_unique. apply (RInt_pmom P (momW alpha b) (fun t e => omega alpha t * ((1 - t) ^ 0 * t ^ e (tdim b)))).
      intros e. apply is_RInt_bmom.
    + intros t _. rewrite (IintW_ext _ _ _ (peval (tdim b) (sliceP (tdim b) t P))) by (intros; apply peval_sliceP).
      rewrite IH, pmom_scal. unfold sliceP. rewrite map_map. f_equal. apply map_ext. intros [c e]. cbn [fst snd]. f_equal. simpl. ring.
  - rewrite (RInt_ext _ (fun t => pmom (momW alpha b) (map (fun ce => (fst ce * (omega alpha t * ((1 - t) ^ (tdim b + degree (tdim b) (snd ce)) * t ^ snd ce (tdim b))), snd ce)) P))).
    + change (pmom (momW alpha (Pyr b)) P) with (pmom (fun e => momW alpha b e * bmom alpha (tdim b + degree (tdim b) e) (e (tdim b))) P).
      apply is_RInt_unique. apply (RInt_pmom P (momW alpha b) (fun t e => omega alpha t * ((1 - t) ^ (tdim b + degree (tdim b) e) * t ^ e (tdim b)))).
      intros e. apply is_RInt_bmom.
    + intros t _. rewrite (IintW_ext _ _ _ (peval (tdim b) (sliceC (tdim b) t P))) by (intros; apply peval_sliceC).
      rewrite IH, !pmom_scal. unfold sliceC. rewrite !map_map. f_equal. apply map_ext. intros [c e]. cbn [fst snd]. f_equal.
      rewrite pow_add. ring.
Qed.

Lemma omega_0 x : omega 0 x = 1.
Proof. reflexivity. Qed.

Lemma IintW_Iint T : forall f, IintW 0 T f = Iint T f.
Proof.
  induction T as [|b IH|b IH]; intros f; cbn [IintW Iint]; [reflexivity| |].
  - apply RInt_ext. intros t _. rewrite IH, omega_0. apply Rmult_1_l.
  - apply RInt_ext. intros t _. rewrite IH, omega_0. apply Rmult_1_l.
Qed.

(** ** Errors per moment and per polynomial *)
Definition momExact (alpha : nat) (T : Topo) (p : nat) (err : R) (pts : list QPoint) : Prop :=
  forall e, (degree (tdim T) e <= p)%nat -> Rabs (quad pts (monomial (tdim T) e) - momW alpha T e) <= err.

Lemma momExact_exact alpha T p err pts : momExact alpha T p err pts -> exactND alpha T p err pts.
Proof.
  intros H P. rewrite IintW_peval. induction P as [|[c e] P IH]; intros D.
  - cbn [pmom pnorm]. rewrite (quad_ext _ _ (fun _ => 0 * 0)) by (intros; cbn; ring). rewrite quad_scal.
    rewrite Rmult_0_l, Rminus_0_r, Rabs_R0. lra.
  - cbn [pmom pnorm]. rewrite (quad_ext _ _ (fun x => c * monomial (tdim T) e x + peval (tdim T) P x)) by reflexivity.
    rewrite quad_plus, quad_scal.
    assert (A := H e (D c e (or_introl eq_refl))).
    assert (B : Rabs (quad pts (peval (tdim T) P) - pmom (momW alpha T) P) <= err * pnorm P).
    { apply IH. intros c' e' I. apply (D c' e'). now right. }
    replace (_ - _) with (c * (quad pts (monomial (tdim T) e) - momW alpha T e) + (quad pts (peval (tdim T) P) - pmom (momW alpha T) P)) by ring.
    eapply Rle_trans; [apply Rabs_triang|]. rewrite Rabs_mult.
    assert (Rabs c * Rabs (quad pts (monomial (tdim T) e) - momW alpha T e) <= Rabs c * err)
      by (apply Rmult_le_compat_l; auto using Rabs_pos).
    lra.
Qed.

Lemma exact_momExact alpha T p err pts : exactND alpha T p err pts -> momExact alpha T p err pts.
Proof.
  intros H e De. assert (A := H [(1, e)]). rewrite IintW_peval in A. cbn [pmom pnorm] in A.
  rewrite (quad_ext _ _ (monomial (tdim T) e)) in A by (intros; cbn; ring).
  rewrite Rabs_R1 in A. replace (1 * momW alpha T e + 0) with (momW alpha T e) in A by ring.
  replace (err * (1 + 0)) with err in A by ring. apply A.
  intros c' e' [[= <- <-]|[]]. exact De.
Qed.

(** one dimensional rules: the products (1-z)^a z^b up to degree [n], with the weight function
    (1-z)^shift still to come *)
Definition betaExact (alpha shift n : nat) (eps : R) (oned : list QPoint) : Prop :=
  forall a b, (a + b <= n)%nat ->
    Rabs (quad oned (fun y => (1 - y 0%nat) ^ a * y 0%nat ^ b) - bmom alpha (a + shift) b) <= eps.

Lemma prod_err A a B b E eps Ca C : Rabs (A - a) <= E -> Rabs (B - b) <= eps -> Rabs a <= Ca -> Rabs b <= C ->
  Rabs (A * B - a * b) <= E * (C + eps) + Ca * eps.
Proof.
  intros H1 H2 H3 H4. replace (A * B - a * b) with ((A - a) * B + a * (B - b)) by ring.
  eapply Rle_trans; [apply Rabs_triang|]. rewrite !Rabs_mult.
  assert (HB : Rabs B <= C + eps). { replace B with (b + (B - b)) by ring. eapply Rle_trans; [apply Rabs_triang|]. lra. }
  apply Rplus_le_compat; apply Rmult_le_compat; auto using Rabs_pos.
Qed.

Section Product.
Variables (alpha : nat) (b : Topo) (p : nat) (base oned : list QPoint) (E eps Ca C : R).
Hypothesis Hb : momExact alpha b p E base.
Hypothesis Ba : forall e, Rabs (momW alpha b e) <= Ca.
Hypothesis Bb : forall a c, Rabs (bmom alpha a c) <= C.

Lemma tensor_exact : betaExact alpha 0 p eps oned ->
  momExact alpha (Pri b) p (E * (C + eps) + Ca * eps) (tensorProduct (tdim b) base oned).
Proof.
  intros Ho e De. cbn [tdim degree] in *. cbn [momW].
  rewrite (quad_tensor (tdim b) base oned _ (monomial (tdim b) e) (fun z => (1 - z) ^ 0 * z ^ e (tdim b))).
  2:{ intros x y. rewrite mono_split. simpl. ring. }
  apply prod_err; auto.
  - apply Hb. lia.
  - apply (Ho 0%nat (e (tdim b))). lia.
Qed.

Lemma conical_exact (respect : bool) :
  betaExact alpha (if respect then tdim b else 0) (if respect then p else p + tdim b)%nat eps oned ->
  momExact alpha (Pyr b) p (E * (C + eps) + Ca * eps) (conicalProduct (tdim b) respect base oned).
Proof.
  intros Ho e De. cbn [tdim degree] in *. cbn [momW].
  rewrite (quad_conical (tdim b) respect base oned _ (monomial (tdim b) e)
    (fun z => (1 - z) ^ degree (tdim b) e * z ^ e (tdim b))).
  2:{ intros x y. apply mono_split_c. }
  rewrite (quad_ext oned _ (fun y => (1 - y 0%nat) ^ (if respect then degree (tdim b) e else tdim b + degree (tdim b) e) * y 0%nat ^ e (tdim b))).
  2:{ intros y. destruct respect; [simpl; ring|]. rewrite pow_add. ring. }
  apply prod_err; auto.
  - apply Hb. lia.
  - destruct respect.
    + specialize (Ho (degree (tdim b) e) (e (tdim b)) De). rewrite Nat.add_comm in Ho. exact Ho.
    + specialize (Ho (tdim b + degree (tdim b) e)%nat (e (tdim b)) ltac:(lia)). rewrite Nat.add_0_r in Ho. exact Ho.
Qed.
End Product.

(** ** Sizes of the moments *)

Lemma omega_nonneg alpha t : t <= 1 -> 0 <= omega alpha t.
Proof. intros H. apply pow_le. lra. Qed.

Lemma bmom_00 alpha : bmom alpha 0 0 = Cw alpha.
Proof. rewrite bmom_Beta, Beta_0. reflexivity. Qed.

Lemma pow01 x n : 0 <= x <= 1 -> 0 <= x ^ n <= 1.
Proof. intros H. induction n as [|n IH]; simpl; [lra|]. nra. Qed.

Lemma bmom_bounds alpha a c : 0 <= bmom alpha a c <= Cw alpha.
Proof.
  rewrite <- bmom_00. unfold bmom. split.
  - apply RInt_ge_0; [lra|apply ex_bmom|]. intros t Ht. apply Rmult_le_pos; [apply omega_nonneg; lra|].
    apply Rmult_le_pos; apply pow_le; lra.
  - apply RInt_le; [lra|apply ex_bmom|apply ex_bmom|]. intros t Ht. apply Rmult_le_compat_l; [apply omega_nonneg; lra|].
    pose proof (pow01 (1 - t) a ltac:(lra)). pose proof (pow01 t c ltac:(lra)).
    rewrite !pow_O. apply Rmult_le_compat; lra.
Qed.
Lemma bmom_abs alpha a c : Rabs (bmom alpha a c) <= Cw alpha.
Proof. pose proof (bmom_bounds alpha a c). rewrite Rabs_right; lra. Qed.

Lemma Cw_pos alpha : 0 < Cw alpha.
Proof. apply Rdiv_lt_0_compat; [apply pow_lt; lra|apply lt_0_INR; lia]. Qed.

Lemma momW_bounds alpha T e : 0 <= momW alpha T e <= Cw alpha ^ tdim T.
Proof.
  pose proof (Cw_pos alpha).
  induction T as [|b IH|b IH]; cbn [momW tdim]; [simpl; lra| |];
    match goal with |- context [bmom ?x ?y ?z] => pose proof (bmom_bounds x y z) end;
    (split; [apply Rmult_le_pos; lra|]); simpl pow; rewrite (Rmult_comm (Cw alpha)); apply Rmult_le_compat; lra.
Qed.
Lemma momW_abs alpha T e : Rabs (momW alpha T e) <= Cw alpha ^ tdim T.
Proof. pose proof (momW_bounds alpha T e). rewrite Rabs_right; lra. Qed.

(** error of a d-fold product *)
Lemma errD_S C e d : errD C e d * (C + e) + C ^ d * e = errD C e (S d).
Proof. unfold errD. simpl. ring. Qed.

Lemma momExact_weaken alpha T p p' E E' pts : momExact alpha T p E pts -> (p' <= p)%nat -> E <= E' -> momExact alpha T p' E' pts.
Proof. intros H L LE e De. eapply Rle_trans; [apply H; lia|exact LE]. Qed.
Lemma betaExact_weaken alpha s n n' e e' o : betaExact alpha s n e o -> (n' <= n)%nat -> e <= e' -> betaExact alpha s n' e' o.
Proof. intros H L LE a b Hab. eapply Rle_trans; [apply H; lia|exact LE]. Qed.

(** ** Points inside, weights nonnegative *)
Lemma insideT_ext T : forall x y a, (forall k, (k < tdim T)%nat -> x k = y k) -> insideT T x a -> insideT T y a.
Proof.
  induction T as [|b IH|b IH]; intros x y a H Hx; cbn [insideT tdim] in *; [exact I| |];
    rewrite <- (H (tdim b)) by lia; (split; [apply Hx|]); (eapply IH; [|apply Hx]); intros k Hk; apply H; lia.
Qed.
Lemma insideT_scale T : forall x a s, 0 <= s -> insideT T x a -> insideT T (fun k => s * x k) (s * a).
Proof.
  induction T as [|b IH|b IH]; intros x a s Hs H; cbn [insideT] in *; [exact I| |]; destruct H as [[H1 H2] H3].
  - split; [split; [apply Rmult_le_pos; lra|apply Rmult_le_compat_l; lra]|]. now apply IH.
  - split; [split; [apply Rmult_le_pos; lra|apply Rmult_le_compat_l; lra]|].
    replace (s * a - s * x (tdim b)) with (s * (a - x (tdim b))) by ring. now apply IH.
Qed.

Definition insidePts (T : Topo) (pts : list QPoint) : Prop := forall q, In q pts -> insideT T (fst q) 1.
Definition unitPts (pts : list QPoint) : Prop := forall q, In q pts -> 0 <= fst q 0%nat <= 1.
Definition nonnegW (pts : list QPoint) : Prop := forall q, In q pts -> 0 <= snd q.

Lemma in_tensor d base oned q : In q (tensorProduct d base oned) ->
  exists b o, In b base /\ In o oned /\ fst q = (fun k => if Nat.eqb k d then fst o 0%nat else fst b k) /\ snd q = snd b * snd o.
Proof.
  unfold tensorProduct. rewrite in_flat_map. intros (b & Ib & H). apply in_map_iff in H. destruct H as (o & <- & Io).
  exists b, o. auto.
Qed.
Lemma in_conical d (r : bool) base oned q : In q (conicalProduct d r base oned) ->
  exists b o, In b base /\ In o oned /\ fst q = (fun k => if Nat.eqb k d then fst o 0%nat else (1 - fst o 0%nat) * fst b k)
    /\ snd q = snd b * snd o * (1 - fst o 0%nat) ^ (if r then 0 else d).
Proof.
  unfold conicalProduct. rewrite in_flat_map. intros (b & Ib & H). apply in_map_iff in H. destruct H as (o & <- & Io).
  exists b, o. split; [assumption|]. split; [assumption|]. split; [reflexivity|]. cbn [snd].
  destruct r; [rewrite pow_O; symmetry; apply Rmult_1_r|]. apply iter_mul.
Qed.

Lemma tensor_inside b base oned : insidePts b base -> unitPts oned -> insidePts (Pri b) (tensorProduct (tdim b) base oned).
Proof.
  intros Hb Ho q I. apply in_tensor in I. destruct I as (x & o & Ix & Io & Ef & _). rewrite Ef. cbn [insideT].
  rewrite Nat.eqb_refl. split; [apply Ho, Io|]. eapply insideT_ext; [|apply (Hb x Ix)].
  intros k Hk. cbv beta. destruct (Nat.eqb_spec k (tdim b)); [lia|reflexivity].
Qed.
Lemma conical_inside b r base oned : insidePts b base -> unitPts oned -> insidePts (Pyr b) (conicalProduct (tdim b) r base oned).
Proof.
  intros Hb Ho q I. apply in_conical in I. destruct I as (x & o & Ix & Io & Ef & _). rewrite Ef. cbn [insideT].
  rewrite Nat.eqb_refl. pose proof (Ho o Io) as U. split; [exact U|].
  assert (S := insideT_scale b (fst x) 1 (1 - fst o 0%nat) ltac:(lra) (Hb x Ix)). rewrite Rmult_1_r in S.
  eapply insideT_ext; [|exact S].
  intros k Hk. cbv beta. destruct (Nat.eqb_spec k (tdim b)); [lia|reflexivity].
Qed.
Lemma tensor_nonneg d base oned : nonnegW base -> nonnegW oned -> nonnegW (tensorProduct d base oned).
Proof.
  intros Hb Ho q I. apply in_tensor in I. destruct I as (x & o & Ix & Io & _ & Es). rewrite Es.
  apply Rmult_le_pos; auto.
Qed.
Lemma conical_nonneg d r base oned : nonnegW base -> nonnegW oned -> unitPts oned -> nonnegW (conicalProduct d r base oned).
Proof.
  intros Hb Ho Hu q I. apply in_conical in I. destruct I as (x & o & Ix & Io & _ & Es). rewrite Es.
  apply Rmult_le_pos; [apply Rmult_le_pos; auto|]. apply pow_le. pose proof (Hu o Io). lra.
Qed.
