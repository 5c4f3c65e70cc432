(** Integrals of polynomials over simplices: polynomial functions, their integrals over the
    reference simplex in Kuhn coordinates, and integrating out one coordinate. *)
From Coq Require Import NArith ZArith PeanoNat Bool List Permutation Reals Factorial Lia Lra FunctionalExtensionality.
From Coquelicot Require Import Coquelicot.
From Verif Require Import M_RefGeo M_Quadrature S_Topo S_RefGeo S_Quad1D S_QuadND P_RSum P_RefGeo P_RefGeo4 P_RefVol P_QuadProd S_Refine P_Refine4.
Import ListNotations.
Local Open Scope R_scope.

(** ** polynomial functions with degree and size of the coefficients *)
Definition polyd (d p : nat) (B : R) (f : Vec -> R) : Prop :=
  exists P, pdegree_le d P p /\ pnorm P <= B /\ forall x, f x = peval d P x.
Definition polyf (d : nat) (f : Vec -> R) : Prop := exists P, forall x, f x = peval d P x.

Lemma polyd_polyf : forall d p B f, polyd d p B f -> polyf d f.
Proof. intros d p B f (P & _ & _ & E). exists P. exact E. Qed.
Lemma pdegree_all : forall d P, exists p, pdegree_le d P p.
Proof.
  intros d P. induction P as [|[c e] P [p IH]]; [exists 0%nat; intros c e []|].
  exists (Nat.max p (degree d e)). intros c' e' [H|H]; [injection H as <- <-; lia|]. specialize (IH c' e' H). lia.
Qed.
Lemma polyf_polyd : forall d f, polyf d f -> exists p B, polyd d p B f.
Proof. intros d f (P & E). destruct (pdegree_all d P) as (p & H). exists p, (pnorm P), P. split; [assumption|]. split; [lra|assumption]. Qed.
Lemma pnorm_pos : forall P, 0 <= pnorm P.
Proof. induction P as [|[c e] P IH]; cbn; [lra|]. pose proof (Rabs_pos c). lra. Qed.
Lemma peval_app : forall d P Q x, peval d (P ++ Q) x = peval d P x + peval d Q x.
Proof. intros d P Q x. induction P as [|[c e] P IH]; cbn [app peval]; [ring|]. rewrite IH. ring. Qed.
Lemma pnorm_app : forall P Q, pnorm (P ++ Q) = pnorm P + pnorm Q.
Proof. intros P Q. induction P as [|[c e] P IH]; cbn [app pnorm]; [ring|]. rewrite IH. ring. Qed.
Lemma monomial_zero : forall d x, monomial d (fun _ => 0%nat) x = 1.
Proof. induction d as [|d IH]; intros x; cbn; [reflexivity|]. rewrite IH. ring. Qed.
Lemma degree_zero : forall d, degree d (fun _ => 0%nat) = 0%nat.
Proof. induction d as [|d IH]; cbn; [reflexivity|]. lia. Qed.
Lemma monomial_plus : forall d a b x, monomial d (fun i => (a i + b i)%nat) x = monomial d a x * monomial d b x.
Proof. induction d as [|d IH]; intros; cbn; [ring|]. rewrite IH, pow_add. ring. Qed.
Lemma degree_plus : forall d a b, degree d (fun i => (a i + b i)%nat) = (degree d a + degree d b)%nat.
Proof. induction d as [|d IH]; intros; cbn; [reflexivity|]. rewrite IH. lia. Qed.
Definition mterm (c : R) (e : nat -> nat) (P : MPoly) : MPoly := map (fun ce => (c * fst ce, fun i => (e i + snd ce i)%nat)) P.
Fixpoint pmul (P Q : MPoly) : MPoly := match P with [] => [] | (c, e) :: P => mterm c e Q ++ pmul P Q end.
Lemma peval_mterm : forall d c e P x, peval d (mterm c e P) x = c * monomial d e x * peval d P x.
Proof. intros d c e P x. induction P as [|[c' e'] P IH]; cbn [mterm map peval fst snd]; [ring|]. fold (mterm c e P). rewrite IH, monomial_plus. ring. Qed.
Lemma peval_pmul : forall d P Q x, peval d (pmul P Q) x = peval d P x * peval d Q x.
Proof. intros d P Q x. induction P as [|[c e] P IH]; cbn [pmul peval]; [ring|]. rewrite peval_app, peval_mterm, IH. ring. Qed.
Lemma pnorm_mterm : forall c e P, pnorm (mterm c e P) = Rabs c * pnorm P.
Proof. intros c e P. induction P as [|[c' e'] P IH]; cbn [mterm map pnorm fst snd]; [ring|]. fold (mterm c e P). rewrite IH, Rabs_mult. ring. Qed.
Lemma pnorm_pmul : forall P Q, pnorm (pmul P Q) = pnorm P * pnorm Q.
Proof. intros P Q. induction P as [|[c e] P IH]; cbn [pmul pnorm]; [ring|]. rewrite pnorm_app, pnorm_mterm, IH. ring. Qed.

Lemma polyd_ext : forall d p B f g, polyd d p B f -> (forall x, g x = f x) -> polyd d p B g.
Proof. intros d p B f g (P & D & N & E) H. exists P. split; [assumption|]. split; [assumption|]. intros. rewrite H. apply E. Qed.
Lemma polyd_weaken : forall d p p' B B' f, polyd d p B f -> (p <= p')%nat -> B <= B' -> polyd d p' B' f.
Proof. intros d p p' B B' f (P & D & N & E) H H'. exists P. split; [intros c e I; specialize (D c e I); lia|]. split; [lra|assumption]. Qed.
Lemma polyd_const : forall d c, polyd d 0 (Rabs c) (fun _ => c).
Proof.
  intros d c. exists [(c, fun _ => 0%nat)]. split; [|split].
  - intros c' e' [H|[]]. injection H as <- <-. rewrite degree_zero. lia.
  - cbn. lra.
  - intros x. cbn [peval]. rewrite monomial_zero. ring.
Qed.
Lemma polyd_plus : forall d p B B' f g, polyd d p B f -> polyd d p B' g -> polyd d p (B + B') (fun x => f x + g x).
Proof.
  intros d p B B' f g (P & D & N & E) (P' & D' & N' & E'). exists (P ++ P'). split; [|split].
  - intros c e I. apply in_app_iff in I. destruct I; [eapply D|eapply D']; eassumption.
  - rewrite pnorm_app. lra.
  - intros x. rewrite peval_app, E, E'. reflexivity.
Qed.
Lemma in_mterm : forall c e P c' e', In (c', e') (mterm c e P) -> exists c1 e1, In (c1, e1) P /\ e' = fun i => (e i + e1 i)%nat.
Proof. intros c e P c' e' H. unfold mterm in H. apply in_map_iff in H. destruct H as ([c1 e1] & H & I). cbn in H. injection H as <- <-. exists c1, e1. auto. Qed.
Lemma pdegree_pmul : forall d P Q p q, pdegree_le d P p -> pdegree_le d Q q -> pdegree_le d (pmul P Q) (p + q).
Proof.
  intros d P Q p q HP HQ. induction P as [|[c e] P IH]; [intros ? ? []|]. cbn [pmul]. intros c' e' I. apply in_app_iff in I. destruct I as [I|I].
  - apply in_mterm in I. destruct I as (c1 & e1 & I & ->). rewrite degree_plus. specialize (HQ c1 e1 I). specialize (HP c e (or_introl eq_refl)). lia.
  - apply (IH (fun c e I => HP c e (or_intror I)) c' e' I).
Qed.
Lemma polyd_mult : forall d p q B B' f g, polyd d p B f -> polyd d q B' g -> polyd d (p + q) (B * B') (fun x => f x * g x).
Proof.
  intros d p q B B' f g (P & D & N & E) (P' & D' & N' & E'). exists (pmul P P'). split; [|split].
  - apply pdegree_pmul; assumption.
  - rewrite pnorm_pmul. apply Rmult_le_compat; auto using pnorm_pos.
  - intros x. rewrite peval_pmul, E, E'. reflexivity.
Qed.
Lemma polyd_scal : forall d p B f c, polyd d p B f -> polyd d p (Rabs c * B) (fun x => c * f x).
Proof. intros d p B f c H. apply (polyd_mult d 0 p (Rabs c) B (fun _ => c) f); [apply polyd_const|assumption]. Qed.
Lemma monomial_single : forall d i x, monomial d (fun k => if Nat.eqb k i then 1%nat else 0%nat) x = if Nat.ltb i d then x i else 1.
Proof.
  induction d as [|d IH]; intros i x; cbn [monomial]; [reflexivity|]. rewrite IH. destruct (Nat.eqb_spec d i) as [->|N].
  - rewrite Nat.ltb_irrefl, (proj2 (Nat.ltb_lt i (S i))) by lia. cbn. ring.
  - destruct (Nat.ltb_spec i d), (Nat.ltb_spec i (S d)); try lia; cbn; ring.
Qed.
Lemma degree_single : forall d i, (degree d (fun k => if Nat.eqb k i then 1 else 0) <= 1)%nat.
Proof.
  intros d i. assert (H : forall d, degree d (fun k => if Nat.eqb k i then 1 else 0)%nat = if Nat.ltb i d then 1%nat else 0%nat).
  { clear d. induction d as [|d IH]; cbn [degree]; [reflexivity|]. rewrite IH.
    destruct (Nat.eqb_spec d i), (Nat.ltb_spec i d), (Nat.ltb_spec i (S d)); lia. }
  rewrite H. destruct (Nat.ltb i d); lia.
Qed.
Lemma polyd_coord : forall d i, (i < d)%nat -> polyd d 1 1 (fun x => x i).
Proof.
  intros d i Hi. exists [(1, fun k => if Nat.eqb k i then 1%nat else 0%nat)]. split; [|split].
  - intros c e [H|[]]. injection H as <- <-. apply degree_single.
  - cbn. rewrite Rabs_R1. lra.
  - intros x. cbn [peval]. rewrite monomial_single, (proj2 (Nat.ltb_lt i d)) by assumption. ring.
Qed.
Lemma polyd_pow : forall d p B f k, polyd d p B f -> polyd d (k * p) (B ^ k) (fun x => f x ^ k).
Proof.
  intros d p B f k H. induction k as [|k IH]; cbn [pow Nat.mul].
  - rewrite <- Rabs_R1 at 1. apply polyd_const.
  - apply (polyd_mult d p (k * p) B (B ^ k) f (fun x => f x ^ k)); assumption.
Qed.
(** substituting polynomials of degree one *)
Lemma polyd_monomial : forall d d' e (G : Vec -> Vec) B, (forall i, (i < d')%nat -> polyd d 1 B (fun x => G x i)) ->
  polyd d (degree d' e) (B ^ degree d' e) (fun x => monomial d' e (G x)).
Proof.
  intros d d' e G B. induction d' as [|d' IH]; intros H; cbn [monomial degree].
  - cbn [pow]. rewrite <- Rabs_R1 at 1. apply polyd_const.
  - rewrite pow_add. apply (polyd_mult d _ _ _ _ (fun x => monomial d' e (G x)) (fun x => G x d' ^ e d')); [apply IH; intros; apply H; lia|].
    replace (e d') with (e d' * 1)%nat at 1 by lia. apply (polyd_pow d 1 B (fun x => G x d')). apply H. lia.
Qed.
Lemma polyd_comp : forall d d' P p (G : Vec -> Vec) B, 1 <= B -> (forall i, (i < d')%nat -> polyd d 1 B (fun x => G x i)) -> pdegree_le d' P p ->
  polyd d p (pnorm P * B ^ p) (fun x => peval d' P (G x)).
Proof.
  intros d d' P p G B HB HG D. induction P as [|[c e] P IH]; cbn [peval pnorm].
  - apply (polyd_weaken d 0 p (Rabs 0)); [apply polyd_const|lia|rewrite Rabs_R0; lra].
  - rewrite Rmult_plus_distr_r. apply polyd_plus; [|apply IH; intros c' e' I; apply (D c' e' (or_intror I))].
    specialize (D c e (or_introl eq_refl)).
    apply (polyd_weaken d (degree d' e) p (Rabs c * B ^ degree d' e)); [|assumption|].
    + apply (polyd_scal d (degree d' e) _ (fun x => monomial d' e (G x)) c). apply polyd_monomial. assumption.
    + apply Rmult_le_compat_l; [apply Rabs_pos|]. apply Rle_pow; assumption.
Qed.

(** the same without the bounds *)
Lemma pf_ext : forall d f g, polyf d f -> (forall x, g x = f x) -> polyf d g.
Proof. intros d f g (P & E) H. exists P. intros. rewrite H. apply E. Qed.
Lemma pf_const : forall d c, polyf d (fun _ => c).
Proof. intros. eapply polyd_polyf, polyd_const. Qed.
Lemma pf_coord : forall d i, (i < d)%nat -> polyf d (fun x => x i).
Proof. intros. eapply polyd_polyf, polyd_coord. assumption. Qed.
Lemma pf_plus : forall d f g, polyf d f -> polyf d g -> polyf d (fun x => f x + g x).
Proof. intros d f g (P & E) (P' & E'). exists (P ++ P'). intros. rewrite peval_app, E, E'. reflexivity. Qed.
Lemma pf_mult : forall d f g, polyf d f -> polyf d g -> polyf d (fun x => f x * g x).
Proof. intros d f g (P & E) (P' & E'). exists (pmul P P'). intros. rewrite peval_pmul, E, E'. reflexivity. Qed.
Lemma pf_scal : forall d f c, polyf d f -> polyf d (fun x => c * f x).
Proof. intros d f c H. apply (pf_mult d (fun _ => c) f); [apply pf_const|assumption]. Qed.
Lemma pf_minus : forall d f g, polyf d f -> polyf d g -> polyf d (fun x => f x - g x).
Proof. intros d f g H H'. apply (pf_ext d (fun x => f x + -1 * g x)); [apply pf_plus; [assumption|apply pf_scal; assumption]|]. intros. ring. Qed.
Lemma pf_pow : forall d f k, polyf d f -> polyf d (fun x => f x ^ k).
Proof. intros d f k H. induction k as [|k IH]; cbn [pow]; [apply pf_const|]. apply (pf_mult d f (fun x => f x ^ k)); assumption. Qed.
Lemma pf_monomial : forall d d' e (G : Vec -> Vec), (forall i, (i < d')%nat -> polyf d (fun x => G x i)) -> polyf d (fun x => monomial d' e (G x)).
Proof.
  intros d d' e G. induction d' as [|d' IH]; intros H; cbn [monomial]; [apply pf_const|].
  apply (pf_mult d (fun x => monomial d' e (G x)) (fun x => G x d' ^ e d')); [apply IH; intros; apply H; lia|].
  apply (pf_pow d (fun x => G x d')). apply H. lia.
Qed.
Lemma pf_comp : forall d d' f (G : Vec -> Vec), polyf d' f -> (forall i, (i < d')%nat -> polyf d (fun x => G x i)) -> polyf d (fun x => f (G x)).
Proof.
  intros d d' f G (P & E) H. apply (pf_ext d (fun x => peval d' P (G x))); [|intros; apply E]. clear E f.
  induction P as [|[c e] P IH]; cbn [peval]; [apply pf_const|].
  apply (pf_plus d (fun x => c * monomial d' e (G x)) (fun x => peval d' P (G x))); [|assumption].
  apply (pf_scal d (fun x => monomial d' e (G x))). apply pf_monomial. assumption.
Qed.
Lemma pf_rsum : forall d n (f : nat -> Vec -> R), (forall i, (i < n)%nat -> polyf d (f i)) -> polyf d (fun x => rsum n (fun i => f i x)).
Proof.
  intros d n f. induction n as [|n IH]; intros H; cbn [rsum]; [apply pf_const|].
  apply (pf_plus d (fun x => rsum n (fun i => f i x)) (f n)); [apply IH; intros; apply H; lia|apply H; lia].
Qed.
Lemma peval_agree : forall d P x y, agree d x y -> peval d P x = peval d P y.
Proof. intros d P x y A. induction P as [|[c e] P IH]; cbn [peval]; [reflexivity|]. rewrite IH. f_equal. f_equal. apply monomial_ext. assumption. Qed.
Lemma pf_agree : forall d f x y, polyf d f -> agree d x y -> f x = f y.
Proof. intros d f x y (P & E) A. rewrite !E. apply peval_agree. assumption. Qed.
