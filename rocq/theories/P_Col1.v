(** The divergence theorem for functions that are smooth in collapsed coordinates: the class of
    functions, its algebra, integrals and the theorem itself. *)
From Coq Require Import NArith PeanoNat Bool List Lia Reals Lra FunctionalExtensionality.
From Coquelicot Require Import Coquelicot.
From Verif Require Import M_Type M_RefTopo M_RefGeo P_Type P_Type2 S_Topo P_Topo P_RefTopo P_RefTopo2 P_RefTopo3 P_RSum P_RefGeo P_RefGeo2 P_RefGeo3 S_RefGeo P_RefVol P_Trace P_Normal2.
Import ListNotations.
Local Open Scope R_scope.

(** points of a prism and of a pyramid in coordinates of the base and the height *)
Definition pri (b : Topo) (t : R) (y : Vec) : Vec := fun k => if Nat.eqb k (tdim b) then t else y k.
Definition pyr (b : Topo) (t : R) (y : Vec) : Vec := fun k => if Nat.eqb k (tdim b) then t else (1 - t) * y k.

Definition C1 (p q : R -> R) : Prop := (forall t, is_derive p t (q t)) /\ (forall t, continuous q t).

(** a product of a function of the base with partial derivatives and a function of the height *)
Record Term := mkTerm { tg : Vec -> R; td : nat -> Vec -> R; tp : R -> R; tq : R -> R }.

(** [G] is, in collapsed coordinates, a sum of products of functions of one variable, and [D]
    are its partial derivatives away from the apices *)
Fixpoint KD (T : Topo) (G : Vec -> R) (D : nat -> Vec -> R) : Prop :=
  match T with
  | Pt => forall x y, G x = G y
  | Pri b => exists l, (forall e, In e l -> KD b (tg e) (td e) /\ C1 (tp e) (tq e)) /\
      forall t y, G (pri b t y) = lsum (fun e => tg e y * tp e t) l /\
        (forall k, (k < tdim b)%nat -> D k (pri b t y) = lsum (fun e => td e k y * tp e t) l) /\
        D (tdim b) (pri b t y) = lsum (fun e => tg e y * tq e t) l
  | Pyr b => exists l, (forall e, In e l -> KD b (tg e) (td e) /\ C1 (tp e) (tq e)) /\
      forall t y, (b = Pt \/ t <> 1) -> G (pyr b t y) = lsum (fun e => tg e y * tp e t) l /\
        (forall k, (k < tdim b)%nat -> (1 - t) * D k (pyr b t y) = lsum (fun e => td e k y * tp e t) l) /\
        (1 - t) * D (tdim b) (pyr b t y) = lsum (fun e => (1 - t) * (tg e y * tq e t) + rsum (tdim b) (fun j => y j * td e j y) * tp e t) l
  end.

(** *** Functions of one variable *)
Lemma C1_const c : C1 (fun _ => c) (fun _ => 0).
Proof. split; intro t; [exact (is_derive_const c t)|apply continuous_const]. Qed.
Lemma C1_id : C1 (fun t => t) (fun _ => 1).
Proof. split; intro t; [exact (is_derive_id t)|apply continuous_const]. Qed.
Lemma C1_om : C1 (fun t => 1 - t) (fun _ => -1).
Proof. split; intro t; [auto_derive; [exact I|ring]|apply continuous_const]. Qed.
Lemma C1_cont p q t : C1 p q -> continuous p t.
Proof. intros [H _]. apply (ex_derive_continuous (K := R_AbsRing) (V := R_NormedModule)). exists (q t). apply H. Qed.
Lemma C1_mult p q p' q' : C1 p q -> C1 p' q' -> C1 (fun t => p t * p' t) (fun t => q t * p' t + p t * q' t).
Proof.
  intros H H'. split; intro t.
  - exact (is_derive_mult p p' t _ _ (proj1 H t) (proj1 H' t) Rmult_comm).
  - apply (continuous_plus (fun t => q t * p' t) (fun t => p t * q' t)); apply (continuous_mult (K := R_AbsRing)).
    + apply H. + eapply C1_cont; eassumption. + eapply C1_cont; eassumption. + apply H'.
Qed.
Lemma C1_ext p q p' q' : (forall t, p t = p' t) -> (forall t, q t = q' t) -> C1 p q -> C1 p' q'.
Proof. intros E E' H. replace p' with p by (now apply functional_extensionality). replace q' with q by (now apply functional_extensionality). exact H. Qed.
Lemma ex_cont (h : R -> R) : (forall t, continuous h t) -> ex_RInt h 0 1.
Proof. intro H. apply (ex_RInt_continuous (V := R_CompleteNormedModule)). intros; apply H. Qed.
Lemma cont_pow n t : continuous (fun t => (1 - t) ^ n) t.
Proof. apply (ex_derive_continuous (K := R_AbsRing) (V := R_NormedModule)). auto_derive. exact I. Qed.

Lemma is_RInt_lsum {A} (h : A -> R -> R) (v : A -> R) l : (forall a, In a l -> is_RInt (h a) 0 1 (v a)) ->
  is_RInt (fun t => lsum (fun a => h a t) l) 0 1 (lsum v l).
Proof.
  induction l as [|a l IH]; intro H.
  - cbn. evar_last; [exact (is_RInt_const (V := R_NormedModule) 0 1 0)|]. change (scal (1 - 0) 0 = 0) with ((1 - 0) * 0 = 0). ring.
  - refine (is_RInt_plus (V := R_NormedModule) _ _ 0 1 _ _ (H a (or_introl eq_refl)) (IH _)). intros; apply H; now right.
Qed.
Lemma is_RInt_sc (h : R -> R) c v : is_RInt h 0 1 v -> is_RInt (fun t => c * h t) 0 1 (c * v).
Proof. intro H. exact (is_RInt_scal (V := R_NormedModule) h 0 1 c v H). Qed.
Lemma is_RInt_cont (h : R -> R) : (forall t, continuous h t) -> is_RInt h 0 1 (RInt h 0 1).
Proof. intro H. apply (RInt_correct (V := R_CompleteNormedModule)). now apply ex_cont. Qed.
Lemma is_RInt_C1 p q : C1 p q -> is_RInt q 0 1 (p 1 - p 0).
Proof. intro H. refine (is_RInt_derive (V := R_CompleteNormedModule) p q 0 1 _ _); intros x _; apply H. Qed.

(** *** Algebra of the class *)
Lemma KD_ext T : forall G D G' D', (forall x, G x = G' x) -> (forall k x, (k < tdim T)%nat -> D k x = D' k x) -> KD T G D -> KD T G' D'.
Proof.
  intros G D G' D' E E'. replace G' with G by (now apply functional_extensionality). clear E.
  destruct T as [|b|b]; cbn [KD tdim] in *; [auto| |].
  - intros (l & H1 & H2). exists l. split; [exact H1|]. intros t y. destruct (H2 t y) as (A & B & C).
    split; [exact A|]. split; [intros k Hk; rewrite <- E' by lia; now apply B|now rewrite <- E' by lia].
  - intros (l & H1 & H2). exists l. split; [exact H1|]. intros t y Ht. destruct (H2 t y Ht) as (A & B & C).
    split; [exact A|]. split; [intros k Hk; rewrite <- E' by lia; now apply B|now rewrite <- E' by lia].
Qed.

Lemma KD_const T c : KD T (fun _ => c) (fun _ _ => 0).
Proof.
  induction T as [|b IH|b IH]; cbn [KD]; [reflexivity| |];
    (exists [mkTerm (fun _ => c) (fun _ _ => 0) (fun _ => 1) (fun _ => 0)]; split;
     [intros e [<-|[]]; cbn [tg td tp tq]; split; [exact IH|apply C1_const]|]); intros t y.
  - cbn. repeat split; intros; ring.
  - intros _. cbn. repeat split; intros; try ring. rewrite rsum_0; [ring|]. intros; ring.
Qed.

Lemma KD_plus T : forall G D G' D', KD T G D -> KD T G' D' -> KD T (fun x => G x + G' x) (fun k x => D k x + D' k x).
Proof.
  destruct T as [|b|b]; cbn [KD]; intros G D G' D' H H'.
  - intros x y. now rewrite (H x y), (H' x y).
  - destruct H as (l & H1 & H2), H' as (l' & H1' & H2'). exists (l ++ l'). split.
    + intros e He. apply in_app_or in He. destruct He; auto.
    + intros t y. destruct (H2 t y) as (A & B & C), (H2' t y) as (A' & B' & C'). rewrite A, A', C, C', !lsum_app.
      split; [reflexivity|]. split; [|reflexivity]. intros k Hk. now rewrite B, B', !lsum_app.
  - destruct H as (l & H1 & H2), H' as (l' & H1' & H2'). exists (l ++ l'). split.
    + intros e He. apply in_app_or in He. destruct He; auto.
    + intros t y Ht. destruct (H2 t y Ht) as (A & B & C), (H2' t y Ht) as (A' & B' & C'). rewrite A, A', !Rmult_plus_distr_l, C, C', !lsum_app.
      split; [reflexivity|]. split; [|reflexivity]. intros k Hk. now rewrite Rmult_plus_distr_l, B, B', !lsum_app.
Qed.

Definition tmul (ee : Term * Term) : Term :=
  let (e, f) := ee in
  mkTerm (fun x => tg e x * tg f x) (fun k x => td e k x * tg f x + tg e x * td f k x) (fun t => tp e t * tp f t) (fun t => tq e t * tp f t + tp e t * tq f t).

Lemma lsum_times {A B} (f : A -> R) (g : B -> R) l m : lsum f l * lsum g m = lsum (fun p => f (fst p) * g (snd p)) (list_prod l m).
Proof.
  induction l as [|a l IH]; cbn [list_prod]; [cbn; ring|]. rewrite lsum_cons, lsum_app, lsum_map, <- IH. cbn [fst snd]. rewrite lsum_scal. ring.
Qed.

Lemma KD_mult T : forall G D G' D', KD T G D -> KD T G' D' -> KD T (fun x => G x * G' x) (fun k x => D k x * G' x + G x * D' k x).
Proof.
  induction T as [|b IH|b IH]; cbn [KD]; intros G D G' D' H H'.
  - intros x y. now rewrite (H x y), (H' x y).
  - destruct H as (l & H1 & H2), H' as (l' & H1' & H2'). exists (map tmul (list_prod l l')). split.
    + intros e He. apply in_map_iff in He. destruct He as ((e1 & e2) & <- & He). apply in_prod_iff in He. destruct He as [He1 He2].
      destruct (H1 _ He1), (H1' _ He2). cbn [tmul tg td tp tq]. split; [now apply IH|now apply C1_mult].
    + intros t y. destruct (H2 t y) as (A & B & C), (H2' t y) as (A' & B' & C'). rewrite A, A', C, C', !lsum_map, !lsum_times.
      rewrite <- lsum_plus. split; [apply lsum_ext; intros [e1 e2] _; cbn; ring|]. split; [|apply lsum_ext; intros [e1 e2] _; cbn; ring].
      intros k Hk. rewrite B, B' by assumption. rewrite lsum_map, !lsum_times, <- lsum_plus. apply lsum_ext; intros [e1 e2] _; cbn; ring.
  - destruct H as (l & H1 & H2), H' as (l' & H1' & H2'). exists (map tmul (list_prod l l')). split.
    + intros e He. apply in_map_iff in He. destruct He as ((e1 & e2) & <- & He). apply in_prod_iff in He. destruct He as [He1 He2].
      destruct (H1 _ He1), (H1' _ He2). cbn [tmul tg td tp tq]. split; [now apply IH|now apply C1_mult].
    + intros t y Ht. destruct (H2 t y Ht) as (A & B & C), (H2' t y Ht) as (A' & B' & C').
      split; [rewrite A, A', lsum_map, lsum_times; apply lsum_ext; intros [e1 e2] _; cbn; ring|]. split.
      * intros k Hk. transitivity (((1 - t) * D k (pyr b t y)) * G' (pyr b t y) + G (pyr b t y) * ((1 - t) * D' k (pyr b t y))); [ring|].
        rewrite B, B', A, A' by assumption. rewrite lsum_map, !lsum_times, <- lsum_plus. apply lsum_ext; intros [e1 e2] _; cbn; ring.
      * transitivity (((1 - t) * D (tdim b) (pyr b t y)) * G' (pyr b t y) + G (pyr b t y) * ((1 - t) * D' (tdim b) (pyr b t y))); [ring|].
        rewrite C, C', A, A'. rewrite lsum_map, !lsum_times, <- lsum_plus. apply lsum_ext; intros [e1 e2] _; cbn [fst snd tmul tg td tp tq].
        rewrite (rsum_ext (tdim b) (fun j => y j * (td e1 j y * tg e2 y + tg e1 y * td e2 j y)) (fun j => y j * td e1 j y * tg e2 y + tg e1 y * (y j * td e2 j y))) by (intros; ring).
        rewrite rsum_plus, rsum_scal_r, rsum_scal. ring.
Qed.

Lemma KD_scal T c G D : KD T G D -> KD T (fun x => c * G x) (fun k x => c * D k x).
Proof.
  intro H. refine (KD_ext T _ _ _ _ _ _ (KD_mult T _ _ _ _ (KD_const T c) H)); [reflexivity|]. intros; cbn; ring.
Qed.
Lemma KD_rsum T n (G : nat -> Vec -> R) (D : nat -> nat -> Vec -> R) : (forall i, (i < n)%nat -> KD T (G i) (D i)) ->
  KD T (fun x => rsum n (fun i => G i x)) (fun k x => rsum n (fun i => D i k x)).
Proof.
  induction n as [|n IH]; intro H; cbn [rsum]; [apply KD_const|]. apply KD_plus; [apply IH; auto|apply H; lia].
Qed.
Lemma KD_coord T : forall j, (j < tdim T)%nat -> KD T (fun x => x j) (fun k _ => if Nat.eqb k j then 1 else 0).
Proof.
  induction T as [|b IH|b IH]; cbn [tdim]; intros j Hj; [lia| |]; cbn [KD].
  - destruct (Nat.eq_dec j (tdim b)) as [->|N].
    + exists [mkTerm (fun _ => 1) (fun _ _ => 0) (fun t => t) (fun _ => 1)]. split; [intros e [<-|[]]; split; [exact (KD_const b 1)|apply C1_id]|].
      intros t y. unfold pri. rewrite !Nat.eqb_refl. cbn. split; [ring|]. split; [|ring]. intros k Hk. destruct (Nat.eqb_spec k (tdim b)); [lia|ring].
    + exists [mkTerm (fun x => x j) (fun k _ => if Nat.eqb k j then 1 else 0) (fun _ => 1) (fun _ => 0)].
      split; [intros e [<-|[]]; split; [exact (IH j ltac:(lia))|exact (C1_const 1)]|].
      intros t y. unfold pri. destruct (Nat.eqb_spec j (tdim b)); [lia|]. destruct (Nat.eqb_spec (tdim b) j); [lia|]. cbn. repeat split; intros; ring.
  - destruct (Nat.eq_dec j (tdim b)) as [->|N].
    + exists [mkTerm (fun _ => 1) (fun _ _ => 0) (fun t => t) (fun _ => 1)]. split; [intros e [<-|[]]; split; [exact (KD_const b 1)|apply C1_id]|].
      intros t y _. unfold pyr. rewrite !Nat.eqb_refl. cbn. split; [ring|]. split; [|rewrite rsum_0 by (intros; ring); ring].
      intros k Hk. destruct (Nat.eqb_spec k (tdim b)); [lia|ring].
    + exists [mkTerm (fun x => x j) (fun k _ => if Nat.eqb k j then 1 else 0) (fun t => 1 - t) (fun _ => -1)].
      split; [intros e [<-|[]]; split; [exact (IH j ltac:(lia))|exact C1_om]|].
      intros t y _. unfold pyr. destruct (Nat.eqb_spec j (tdim b)); [lia|]. destruct (Nat.eqb_spec (tdim b) j); [lia|]. cbn. split; [ring|]. split; [intros; ring|].
      rewrite (rsum_ext _ _ (fun i => if Nat.eqb i j then y i else 0)) by (intros i Hi; destruct (Nat.eqb i j); ring).
      rewrite (rsum_delta (tdim b) j y) by lia. ring.
Qed.

(** *** Integrals as a relation, which is linear without side conditions *)
Fixpoint ii (T : Topo) (F : Vec -> R) (v : R) : Prop :=
  match T with
  | Pt => F (fun _ => 0) = v
  | Pri b => exists h, (forall t, 0 < t < 1 -> ii b (fun y => F (pri b t y)) (h t)) /\ is_RInt h 0 1 v
  | Pyr b => exists h, (forall t, 0 < t < 1 -> ii b (fun y => F (pyr b t y)) (h t)) /\ is_RInt (fun t => (1 - t) ^ tdim b * h t) 0 1 v
  end.
Lemma ii_Iint T : forall F v, ii T F v -> Iint T F = v.
Proof.
  induction T as [|b IH|b IH]; cbn [ii Iint]; intros F v H; [exact H| |]; destruct H as (h & H1 & H2).
  - rewrite <- (is_RInt_unique _ _ _ _ H2). apply RInt_ext. intros t Ht. rewrite Rmin_left, Rmax_right in Ht by lra. apply IH. now apply H1.
  - rewrite <- (is_RInt_unique _ _ _ _ H2). apply RInt_ext. intros t Ht. rewrite Rmin_left, Rmax_right in Ht by lra.
    match goal with |- @eq _ ?a ?b => change (@eq R a b) end. f_equal. apply IH. now apply H1.
Qed.
Lemma ii_ext T F G v w : (forall x, F x = G x) -> v = w -> ii T F v -> ii T G w.
Proof. intros E <-. replace G with F by (now apply functional_extensionality). auto. Qed.
Lemma ii_zero T : ii T (fun _ => 0) 0.
Proof.
  induction T as [|b IH|b IH]; cbn [ii]; [reflexivity| |]; exists (fun _ => 0); (split; [intros; exact IH|]).
  - evar_last; [exact (is_RInt_const (V := R_NormedModule) 0 1 0)|]. change ((1 - 0) * 0 = 0). ring.
  - apply (is_RInt_ext (fun _ => 0)); [intros; toR; ring|]. evar_last; [exact (is_RInt_const (V := R_NormedModule) 0 1 0)|]. change ((1 - 0) * 0 = 0). ring.
Qed.
Lemma ii_plus T : forall F G v w, ii T F v -> ii T G w -> ii T (fun x => F x + G x) (v + w).
Proof.
  induction T as [|b IH|b IH]; cbn [ii]; intros F G v w H H'; [now rewrite H, H'| |]; destruct H as (h & H1 & H2), H' as (h' & H1' & H2'); exists (fun t => h t + h' t);
    (split; [intros; now apply IH; auto|]).
  - exact (is_RInt_plus (V := R_NormedModule) _ _ _ _ _ _ H2 H2').
  - apply (is_RInt_ext (fun t => (1 - t) ^ tdim b * h t + (1 - t) ^ tdim b * h' t)); [intros; toR; ring|]. exact (is_RInt_plus (V := R_NormedModule) _ _ _ _ _ _ H2 H2').
Qed.
Lemma ii_scal T c : forall F v, ii T F v -> ii T (fun x => c * F x) (c * v).
Proof.
  induction T as [|b IH|b IH]; cbn [ii]; intros F v H; [now rewrite H| |]; destruct H as (h & H1 & H2); exists (fun t => c * h t);
    (split; [intros; now apply IH; auto|]).
  - now apply is_RInt_sc.
  - apply (is_RInt_ext (fun t => c * ((1 - t) ^ tdim b * h t))); [intros; toR; ring|]. now apply is_RInt_sc.
Qed.
Lemma ii_lsum {A} T (F : A -> Vec -> R) v l : (forall a, In a l -> ii T (F a) (v a)) -> ii T (fun x => lsum (fun a => F a x) l) (lsum v l).
Proof.
  induction l as [|a l IH]; intro H; [exact (ii_zero T)|]. apply (ii_plus T (F a)); [apply H; now left|]. apply IH. intros; apply H; now right.
Qed.
Lemma ii_rsum T n (F : nat -> Vec -> R) v : (forall i, (i < n)%nat -> ii T (F i) (v i)) -> ii T (fun x => rsum n (fun i => F i x)) (rsum n v).
Proof.
  induction n as [|n IH]; intro H; [exact (ii_zero T)|]. cbn [rsum]. apply ii_plus; [apply IH; auto|apply H; lia].
Qed.
