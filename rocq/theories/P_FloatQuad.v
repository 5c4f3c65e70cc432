(** Lemmas for C67: products of floating point quadrature rules. *)
From Coq Require Import PeanoNat NArith ZArith QArith Qreals Bool List Reals Lra Lia.
From Flocq Require Import Core IEEE754.BinarySingleNaN.
From Verif Require Import M_Type M_RefGeo M_Matrix M_Float M_Quadrature M_FloatQuad S_QuadND S_FloatQuad P_RSum P_Float P_FloatNear.
Import ListNotations.
Local Open Scope R_scope.

Lemma lsum_le {A} (f g : A -> R) l : (forall a, In a l -> f a <= g a) -> lsum f l <= lsum g l.
Proof.
  induction l as [|a l IH]; intros H; [cbn; lra|]. rewrite !lsum_cons.
  apply Rplus_le_compat; [apply H; now left|apply IH; intros; apply H; now right].
Qed.
Lemma lsum_mem {A} (f : A -> R) l a : (forall b, In b l -> 0 <= f b) -> In a l -> f a <= lsum f l.
Proof.
  induction l as [|b l IH]; intros H I; [destruct I|]. rewrite lsum_cons. destruct I as [<-|I].
  - pose proof (lsum_nonneg f l (fun c Ic => H c (or_intror Ic))). lra.
  - pose proof (H b (or_introl eq_refl)). pose proof (IH (fun c Ic => H c (or_intror Ic)) I). lra.
Qed.
Lemma lsum_prod {A B} (f : A -> R) (g : B -> R) la lb :
  lsum (fun p => f (fst p) * g (snd p)) (list_prod la lb) = lsum f la * lsum g lb.
Proof.
  induction la as [|a la IH]; cbn [list_prod]; [cbn; ring|].
  rewrite lsum_app, IH, lsum_cons, lsum_map. cbn [fst snd]. rewrite lsum_scal. ring.
Qed.
Lemma lsum_three {A B} (f1 f2 : A -> R) (g1 g2 : B -> R) s e la lb :
  lsum (fun p => s * (f1 (fst p) * g1 (snd p)) + ((-1) * (f2 (fst p) * g2 (snd p)) + e)) (list_prod la lb)
  = s * (lsum f1 la * lsum g1 lb) - lsum f2 la * lsum g2 lb + INR (length la * length lb) * e.
Proof.
  rewrite (lsum_plus (fun p => s * (f1 (fst p) * g1 (snd p)))), (lsum_scal s (fun p => f1 (fst p) * g1 (snd p))), (lsum_prod f1 g1).
  rewrite (lsum_plus (fun p => (-1) * (f2 (fst p) * g2 (snd p)))), (lsum_scal (-1) (fun p => f2 (fst p) * g2 (snd p))), (lsum_prod f2 g2).
  rewrite lsum_const, prod_length. ring.
Qed.
Lemma flat_map_prod {A B C} (g : A -> B -> C) la lb :
  flat_map (fun a => map (fun b => g a b) lb) la = map (fun p => g (fst p) (snd p)) (list_prod la lb).
Proof.
  induction la as [|a la IH]; cbn [flat_map list_prod map]; [reflexivity|].
  rewrite map_app, IH, map_map. reflexivity.
Qed.
Lemma map_prod {A B C D} (f : A -> C) (g : B -> D) la lb :
  map (fun p => (f (fst p), g (snd p))) (list_prod la lb) = list_prod (map f la) (map g lb).
Proof.
  induction la as [|a la IH]; cbn [list_prod map]; [reflexivity|].
  rewrite map_app, IH, !map_map. reflexivity.
Qed.

Section FQ.
Variables (prec emax : Z).
Context (Hp : Prec_gt_0 prec) (He : Prec_lt_emax prec emax).
Hypothesis H2 : (2 <= prec)%Z.
Variable K : R.
Hypothesis HK : 0 <= K.
Notation float := (binary_float prec emax).
Notation u := (bpow radix2 (- prec)).
Notation eta := (P_FloatNear.eta prec emax).
Notation rnd := (round radix2 (SpecFloat.fexp prec emax) (round_mode mode_NE)).
Notation "a [*] b" := (fmul prec emax Hp He a b) (at level 40).
Notation "a [-] b" := (fsub prec emax Hp He a b) (at level 50).
Notation one := (ofZ prec emax Hp He 1).
Notation FQPoint := (FQPoint prec emax).
Notation c := (2 * K + 3).
Notation top := (bpow radix2 (emax - 1)).

(** ** weights: a list of computed and exact weights *)
Section Weights.
Context {X : Type}.
Variables (wf : X -> float) (w : X -> R) (L : list X).
Definition wok (A F : R) : Prop :=
  (forall x, In x L -> is_finite (wf x) = true) /\ lsum (fun x => Rabs (w x)) L <= A
  /\ lsum (fun x => Rabs (B2R (wf x) - w x)) L <= A * F.
End Weights.

Lemma u_le_1 : u <= 1.
Proof. change 1 with (bpow radix2 0). apply bpow_le. lia. Qed.

Lemma wok_one {X} (wf : X -> float) w L A F x : wok wf w L A F -> In x L -> Rabs (B2R (wf x)) <= A * (1 + F).
Proof.
  intros (_ & S1 & S2) I.
  pose proof (lsum_mem (fun x => Rabs (w x)) L x (fun _ _ => Rabs_pos _) I) as M1.
  pose proof (lsum_mem (fun x => Rabs (B2R (wf x) - w x)) L x (fun _ _ => Rabs_pos _) I) as M2. cbv beta in *.
  pose proof (Rabs_triang (w x) (B2R (wf x) - w x)) as T. replace (w x + (B2R (wf x) - w x)) with (B2R (wf x)) in T by ring. lra.
Qed.
Lemma wok_pos {X} (wf : X -> float) w L A F : wok wf w L A F -> 0 <= A /\ 0 <= A * F.
Proof.
  intros (_ & S1 & S2). pose proof (lsum_nonneg (fun x => Rabs (w x)) L (fun _ _ => Rabs_pos _)).
  pose proof (lsum_nonneg (fun x => Rabs (B2R (wf x) - w x)) L (fun _ _ => Rabs_pos _)). lra.
Qed.
Lemma wok_weaken {X} (wf : X -> float) w L A F A' F' : wok wf w L A F -> A <= A' -> F <= F' -> 0 <= F' -> wok wf w L A' F'.
Proof.
  intros W HA HF HF'. pose proof (wok_pos _ _ _ _ _ W) as (P1 & _). destruct W as (S0 & S1 & S2).
  split; [exact S0|]. split; [lra|]. eapply Rle_trans; [exact S2|].
  apply Rle_trans with (A * F'); [now apply Rmult_le_compat_l|now apply Rmult_le_compat_r].
Qed.
Lemma wok_map {X Y} (h : X -> Y) wf w L A F : wok (fun x => wf (h x)) (fun x => w (h x)) L A F -> wok wf w (map h L) A F.
Proof.
  intros (S0 & S1 & S2). split; [|split].
  - intros y I. apply in_map_iff in I. destruct I as (x & <- & I). now apply S0.
  - rewrite lsum_map. exact S1.
  - rewrite lsum_map. exact S2.
Qed.

(** the product of two numbers with errors *)
Lemma mul_err : forall a b x y : R, let ea := Rabs (a - x) in let eb := Rabs (b - y) in
  Rabs (rnd (a * b) - x * y) <= (1 + u) * ((Rabs x + ea) * (Rabs y + eb)) - Rabs x * Rabs y + eta.
Proof.
  intros a b x y ea eb. pose proof (rnd_rel prec emax Hp (a * b)) as R1. pose proof (u_pos prec) as U.
  assert (Aa : Rabs a <= Rabs x + ea).
  { unfold ea. pose proof (Rabs_triang x (a - x)) as T. replace (x + (a - x)) with a in T by ring. exact T. }
  assert (Ab : Rabs b <= Rabs y + eb).
  { unfold eb. pose proof (Rabs_triang y (b - y)) as T. replace (y + (b - y)) with b in T by ring. exact T. }
  assert (M : Rabs (a * b) <= (Rabs x + ea) * (Rabs y + eb)).
  { rewrite Rabs_mult. apply Rmult_le_compat; try apply Rabs_pos; assumption. }
  assert (D : Rabs (a * b - x * y) <= (Rabs x + ea) * (Rabs y + eb) - Rabs x * Rabs y).
  { replace (a * b - x * y) with ((a - x) * b + x * (b - y)) by ring.
    eapply Rle_trans; [apply Rabs_triang|]. rewrite !Rabs_mult. fold ea eb.
    replace ((Rabs x + ea) * (Rabs y + eb) - Rabs x * Rabs y) with (ea * (Rabs y + eb) + Rabs x * eb) by ring.
    apply Rplus_le_compat_r. apply Rmult_le_compat_l; [apply Rabs_pos|exact Ab]. }
  pose proof (Rabs_triang (rnd (a * b) - a * b) (a * b - x * y)) as T.
  replace (rnd (a * b) - a * b + (a * b - x * y)) with (rnd (a * b) - x * y) in T by ring.
  assert (u * Rabs (a * b) <= u * ((Rabs x + ea) * (Rabs y + eb))) by (apply Rmult_le_compat_l; lra). lra.
Qed.

Lemma wok_prod {X Y} (wf : X -> float) w L A F (vf : Y -> float) v M B G :
  wok wf w L A F -> wok vf v M B G -> 1 <= A -> 1 <= B -> 0 <= F -> 0 <= G ->
  A * (1 + F) * (B * (1 + G)) <= top -> INR (length L * length M) * eta <= u ->
  wok (fun p => wf (fst p) [*] vf (snd p)) (fun p => w (fst p) * v (snd p)) (list_prod L M)
    (A * B) ((1 + F) * (1 + G) * (1 + 2 * u) - 1).
Proof.
  intros W V A1 B1 F0 G0 T N. pose proof (u_pos prec) as U.
  assert (FM : forall p, In p (list_prod L M) ->
    B2R (wf (fst p) [*] vf (snd p)) = rnd (B2R (wf (fst p)) * B2R (vf (snd p))) /\ is_finite (wf (fst p) [*] vf (snd p)) = true).
  { intros [x y] I. apply in_prod_iff in I. destruct I as (Ix & Iy). cbn [fst snd].
    pose proof (wok_one _ _ _ _ _ x W Ix) as M1. pose proof (wok_one _ _ _ _ _ y V Iy) as M2.
    apply fmul_ok; [exact H2|now apply W|now apply V|]. rewrite Rabs_mult. eapply Rle_trans; [|exact T].
    apply Rmult_le_compat; try apply Rabs_pos; assumption. }
  pose proof W as (W0 & W1 & W2). pose proof V as (V0 & V1 & V2).
  assert (SA : lsum (fun p => Rabs (w (fst p) * v (snd p))) (list_prod L M)
    = lsum (fun x => Rabs (w x)) L * lsum (fun y => Rabs (v y)) M).
  { rewrite <- lsum_prod. apply lsum_ext. intros p _. apply Rabs_mult. }
  set (Sw := lsum (fun x => Rabs (w x)) L) in *. set (Sv := lsum (fun y => Rabs (v y)) M) in *.
  assert (Pw : 0 <= Sw) by (apply lsum_nonneg; intros; apply Rabs_pos).
  assert (Pv : 0 <= Sv) by (apply lsum_nonneg; intros; apply Rabs_pos).
  split; [intros p I; now apply FM|]. split.
  - rewrite SA. apply Rmult_le_compat; assumption.
  - set (Ew := lsum (fun x => Rabs (B2R (wf x) - w x)) L) in *. set (Ev := lsum (fun x => Rabs (B2R (vf x) - v x)) M) in *.
    assert (Qw : 0 <= Ew) by (apply lsum_nonneg; intros; apply Rabs_pos).
    assert (Qv : 0 <= Ev) by (apply lsum_nonneg; intros; apply Rabs_pos).
    apply Rle_trans with ((1 + u) * ((Sw + Ew) * (Sv + Ev)) - Sw * Sv + INR (length L * length M) * eta).
    + apply Rle_trans with (lsum (fun p =>
        (1 + u) * ((fun x => Rabs (w x) + Rabs (B2R (wf x) - w x)) (fst p) * (fun y => Rabs (v y) + Rabs (B2R (vf y) - v y)) (snd p))
        + ((-1) * ((fun x => Rabs (w x)) (fst p) * (fun y => Rabs (v y)) (snd p)) + eta)) (list_prod L M)).
      * apply lsum_le. intros p I. rewrite (proj1 (FM p I)). cbv beta.
        eapply Rle_trans; [apply mul_err|]. apply Req_le. ring.
      * rewrite (lsum_three (fun x => Rabs (w x) + Rabs (B2R (wf x) - w x)) (fun x => Rabs (w x)) (fun y => Rabs (v y) + Rabs (B2R (vf y) - v y)) (fun y => Rabs (v y))).
        rewrite (lsum_plus (fun x => Rabs (w x))), (lsum_plus (fun y => Rabs (v y))). fold Sw Sv Ew Ev. apply Rle_refl.
    + assert (X1 : (Sw + Ew) * (Sv + Ev) <= A * (1 + F) * (B * (1 + G))) by (apply Rmult_le_compat; lra).
      (* the bound increases with Sw and Sv *)
      assert (X2 : (1 + u) * ((Sw + Ew) * (Sv + Ev)) - Sw * Sv <= (1 + u) * (A * (1 + F) * (B * (1 + G))) - A * B).
      { assert (Y1 : (1 + u) * ((Sw + Ew) * (Sv + Ev)) - Sw * Sv <= (1 + u) * ((A + A * F) * (Sv + Ev)) - A * Sv).
        { assert (Z1 : 0 <= (A - Sw) * ((1 + u) * (Sv + Ev) - Sv)) by (apply Rmult_le_pos; [lra|]; nra).
          assert (Z2 : 0 <= (A * F - Ew) * ((1 + u) * (Sv + Ev))) by (apply Rmult_le_pos; [lra|]; apply Rmult_le_pos; lra). nra. }
        assert (Y2 : (1 + u) * ((A + A * F) * (Sv + Ev)) - A * Sv <= (1 + u) * ((A + A * F) * (B + B * G)) - A * B).
        { assert (PA : 0 <= A * F) by (apply Rmult_le_pos; lra).
          assert (Z1 : 0 <= (B - Sv) * ((1 + u) * (A + A * F) - A)) by (apply Rmult_le_pos; [lra|]; nra).
          assert (Z2 : 0 <= (B * G - Ev) * ((1 + u) * (A + A * F))) by (apply Rmult_le_pos; [lra|]; apply Rmult_le_pos; lra). nra. }
        replace ((A + A * F) * (B + B * G)) with (A * (1 + F) * (B * (1 + G))) in Y2 by ring. lra. }
      assert (X3 : u <= u * (A * (1 + F) * (B * (1 + G)))).
      { rewrite <- (Rmult_1_r u) at 1. apply Rmult_le_compat_l; [lra|].
        assert (1 <= A * (1 + F)) by nra. assert (1 <= B * (1 + G)) by nra. nra. }
      replace (A * B * ((1 + F) * (1 + G) * (1 + 2 * u) - 1)) with ((1 + u) * (A * (1 + F) * (B * (1 + G))) + u * (A * (1 + F) * (B * (1 + G))) - A * B) by ring.
      lra.
Qed.

(** multiplication with the factor [1-z] of the conical product *)
Lemma wok_scale {X} (wf : X -> float) w L A F (sf : X -> float) (s : X -> R) :
  wok wf w L A F -> 1 <= A -> 0 <= F -> A * (1 + F) <= top -> INR (length L) * eta <= u ->
  (forall x, In x L -> is_finite (sf x) = true /\ 0 <= B2R (sf x) <= 1 /\ 0 <= s x <= 1 /\ Rabs (B2R (sf x) - s x) <= (K + 1) * u) ->
  wok (fun x => wf x [*] sf x) (fun x => w x * s x) L A ((1 + F) * (1 + c * u) - 1).
Proof.
  intros W A1 F0 T N HS. pose proof (u_pos prec) as U.
  assert (FM : forall x, In x L -> B2R (wf x [*] sf x) = rnd (B2R (wf x) * B2R (sf x)) /\ is_finite (wf x [*] sf x) = true).
  { intros x I. destruct (HS x I) as (S1 & S2 & _). apply fmul_ok; [exact H2|now apply W|exact S1|].
    rewrite Rabs_mult, (Rabs_pos_eq (B2R (sf x))) by lra. pose proof (wok_one _ _ _ _ _ x W I) as M.
    pose proof (Rabs_pos (B2R (wf x))). nra. }
  pose proof W as (W0 & W1 & W2). split; [intros x I; now apply FM|]. split.
  - eapply Rle_trans; [|exact W1]. apply lsum_le. intros x I. destruct (HS x I) as (_ & _ & S3 & _).
    rewrite Rabs_mult, (Rabs_pos_eq (s x)) by lra. pose proof (Rabs_pos (w x)). nra.
  - apply Rle_trans with ((K + 2) * u * lsum (fun x => Rabs (w x)) L + (1 + u) * lsum (fun x => Rabs (B2R (wf x) - w x)) L + INR (length L) * eta).
    + rewrite <- !lsum_scal, <- lsum_const, <- !lsum_plus. apply lsum_le. intros x I. cbv beta.
      destruct (HS x I) as (_ & S2 & S3 & S4). rewrite (proj1 (FM x I)).
      pose proof (rnd_rel prec emax Hp (B2R (wf x) * B2R (sf x))) as R1.
      set (a := B2R (wf x)) in *. set (b := B2R (sf x)) in *.
      assert (Aa : Rabs a <= Rabs (w x) + Rabs (a - w x)).
      { pose proof (Rabs_triang (w x) (a - w x)) as Q. replace (w x + (a - w x)) with a in Q by ring. exact Q. }
      assert (M : Rabs (a * b) <= Rabs (w x) + Rabs (a - w x)).
      { rewrite Rabs_mult, (Rabs_pos_eq b) by lra. pose proof (Rabs_pos a). nra. }
      assert (D : Rabs (a * b - w x * s x) <= Rabs (a - w x) + Rabs (w x) * ((K + 1) * u)).
      { replace (a * b - w x * s x) with ((a - w x) * b + w x * (b - s x)) by ring.
        eapply Rle_trans; [apply Rabs_triang|]. rewrite !Rabs_mult, (Rabs_pos_eq b) by lra.
        apply Rplus_le_compat.
        - pose proof (Rabs_pos (a - w x)). nra.
        - apply Rmult_le_compat_l; [apply Rabs_pos|exact S4]. }
      pose proof (Rabs_triang (rnd (a * b) - a * b) (a * b - w x * s x)) as Q.
      replace (rnd (a * b) - a * b + (a * b - w x * s x)) with (rnd (a * b) - w x * s x) in Q by ring.
      assert (u * Rabs (a * b) <= u * (Rabs (w x) + Rabs (a - w x))) by (apply Rmult_le_compat_l; lra).
      replace ((K + 2) * u * Rabs (w x)) with (Rabs (w x) * ((K + 1) * u) + u * Rabs (w x)) by ring. lra.
    + assert (X1 : (K + 2) * u * lsum (fun x => Rabs (w x)) L <= (K + 2) * u * A) by (apply Rmult_le_compat_l; [apply Rmult_le_pos; lra|exact W1]).
      assert (X2 : (1 + u) * lsum (fun x => Rabs (B2R (wf x) - w x)) L <= (1 + u) * (A * F)) by (apply Rmult_le_compat_l; lra).
      assert (X3 : u <= u * A) by nra.
      assert (X4 : 0 <= A * F * ((2 * K + 2) * u)) by (apply Rmult_le_pos; [apply Rmult_le_pos; lra|apply Rmult_le_pos; lra]).
      assert (X5 : 0 <= A * (K * u)) by (apply Rmult_le_pos; [lra|apply Rmult_le_pos; lra]).
      replace (A * ((1 + F) * (1 + c * u) - 1)) with ((K + 2) * u * A + (1 + u) * (A * F) + u * A + A * F * ((2 * K + 2) * u) + A * (K * u)) by ring.
      lra.
Qed.

Lemma c_pos : 0 <= c * u.
Proof. pose proof (u_pos prec). apply Rmult_le_pos; lra. Qed.

Lemma wok_iter {X} L A m (sf : X -> float) (s : X -> R) d : forall (wf : X -> float) w,
  wok wf w L A ((1 + c * u) ^ m - 1) -> 1 <= A -> A * (1 + c * u) ^ (m + d) <= top -> INR (length L) * eta <= u ->
  (forall x, In x L -> is_finite (sf x) = true /\ 0 <= B2R (sf x) <= 1 /\ 0 <= s x <= 1 /\ Rabs (B2R (sf x) - s x) <= (K + 1) * u) ->
  wok (fun x => Nat.iter d (fun a => a [*] sf x) (wf x)) (fun x => Nat.iter d (fun a => a * s x) (w x)) L A ((1 + c * u) ^ (m + d) - 1).
Proof.
  induction d as [|d IH]; intros wf w W A1 T N HS; cbn [Nat.iter nat_rect].
  - rewrite Nat.add_0_r. exact W.
  - pose proof c_pos as C0.
    assert (G : forall k, 1 <= (1 + c * u) ^ k) by (intros k; apply pow_R1_Rle; lra).
    assert (L1 : A * (1 + c * u) ^ (m + d) <= top).
    { eapply Rle_trans; [|exact T]. apply Rmult_le_compat_l; [lra|]. apply Rle_pow; [lra|lia]. }
    specialize (IH wf w W A1 L1 N HS).
    replace ((1 + c * u) ^ (m + S d) - 1) with ((1 + ((1 + c * u) ^ (m + d) - 1)) * (1 + c * u) - 1) by (rewrite Nat.add_succ_r; cbn [pow]; ring).
    apply (wok_scale _ _ L A ((1 + c * u) ^ (m + d) - 1) sf s IH A1); try assumption.
    + specialize (G (m + d)%nat). lra.
    + replace (1 + ((1 + c * u) ^ (m + d) - 1)) with ((1 + c * u) ^ (m + d)) by ring. exact L1.
Qed.

(** ** rules: a list of pairs of a computed and an exact point *)
Definition delta (d k : nat) : R := (K + INR (d - 1 - k) * (K + 2)) * u.
Definition pok (d : nat) (p : FQPoint * QPoint) : Prop :=
  forall k, (k < d)%nat -> is_finite (fst (fst p) k) = true /\ 0 <= B2R (fst (fst p) k) <= 1 /\ 0 <= fst (snd p) k <= 1
    /\ Rabs (B2R (fst (fst p) k) - fst (snd p) k) <= delta d k.
Definition rok (d : nat) (A : R) (m : nat) (L : list (FQPoint * QPoint)) : Prop :=
  (forall p, In p L -> pok d p) /\ wok (fun p => snd (fst p)) (fun p => snd (snd p)) L A ((1 + c * u) ^ m - 1).

Lemma delta_top d : delta (S d) d = K * u.
Proof. unfold delta. replace (S d - 1 - d)%nat with 0%nat by lia. cbn. ring. Qed.
Lemma delta_S d k : (k < d)%nat -> delta (S d) k = delta d k + (K + 2) * u.
Proof.
  intros H. unfold delta. replace (S d - 1 - k)%nat with (S (d - 1 - k)) by lia. rewrite S_INR. ring.
Qed.

Definition tens (d : nat) (b o : FQPoint * QPoint) : FQPoint * QPoint :=
  (((fun k => if Nat.eqb k d then fst (fst o) 0%nat else fst (fst b) k), snd (fst b) [*] snd (fst o)),
   (((fun k => if Nat.eqb k d then fst (snd o) 0%nat else fst (snd b) k) : Vec), snd (snd b) * snd (snd o))).
Definition cone (d : nat) (respect : bool) (b o : FQPoint * QPoint) : FQPoint * QPoint :=
  (((fun k => if Nat.eqb k d then fst (fst o) 0%nat else (one [-] fst (fst o) 0%nat) [*] fst (fst b) k),
    if respect then snd (fst b) [*] snd (fst o) else Nat.iter d (fun w => w [*] (one [-] fst (fst o) 0%nat)) (snd (fst b) [*] snd (fst o))),
   (((fun k => if Nat.eqb k d then fst (snd o) 0%nat else (1 - fst (snd o) 0%nat) * fst (snd b) k) : Vec),
    if respect then snd (snd b) * snd (snd o) else Nat.iter d (fun w => w * (1 - fst (snd o) 0%nat)) (snd (snd b) * snd (snd o)))).
Definition pairsOf (g : FQPoint * QPoint -> FQPoint * QPoint -> FQPoint * QPoint) (L M : list (FQPoint * QPoint)) :=
  map (fun p => g (fst p) (snd p)) (list_prod L M).

Lemma tens_fst d L M : map fst (pairsOf (tens d) L M) = tensorProductF prec emax Hp He d (map fst L) (map fst M).
Proof.
  unfold pairsOf, tensorProductF. rewrite map_map, flat_map_prod, <- (map_prod fst fst), map_map. reflexivity.
Qed.
Lemma tens_snd d L M : map snd (pairsOf (tens d) L M) = tensorProduct d (map snd L) (map snd M).
Proof.
  unfold pairsOf, tensorProduct. rewrite map_map, flat_map_prod, <- (map_prod snd snd), map_map. reflexivity.
Qed.
Lemma cone_fst d r L M : map fst (pairsOf (cone d r) L M) = conicalProductF prec emax Hp He d r (map fst L) (map fst M).
Proof.
  unfold pairsOf, conicalProductF. rewrite map_map, flat_map_prod, <- (map_prod fst fst), map_map. reflexivity.
Qed.
Lemma cone_snd d r L M : map snd (pairsOf (cone d r) L M) = conicalProduct d r (map snd L) (map snd M).
Proof.
  unfold pairsOf, conicalProduct. rewrite map_map, flat_map_prod, <- (map_prod snd snd), map_map. reflexivity.
Qed.

Lemma fsub_one : forall z : float, is_finite z = true -> 0 <= B2R z <= 1 ->
  is_finite (one [-] z) = true /\ 0 <= B2R (one [-] z) <= 1 /\ Rabs (B2R (one [-] z) - (1 - B2R z)) <= u.
Proof.
  intros z Fz Z. destruct (ofZ_1 prec emax Hp He H2) as (O1 & O2).
  destruct (fsub_small prec emax Hp He H2 one z O2 Fz) as (S1 & S2); [rewrite O1; apply Rabs_le; lra|].
  split; [exact S2|]. rewrite S1, O1. split; [apply rnd_01; auto; lra|].
  apply rnd_err; auto. apply Rabs_def1; lra.
Qed.

Lemma scale_ok : forall o, pok 1 o ->
  let z := fst (fst o) 0%nat in let y := fst (snd o) 0%nat in
  is_finite (one [-] z) = true /\ 0 <= B2R (one [-] z) <= 1 /\ 0 <= 1 - y <= 1 /\ Rabs (B2R (one [-] z) - (1 - y)) <= (K + 1) * u.
Proof.
  intros o P z y. destruct (P 0%nat Nat.lt_0_1) as (F & Z & Y & E). fold z in F, Z, E. fold y in Y, E.
  destruct (fsub_one z F Z) as (S1 & S2 & S3). split; [exact S1|]. split; [exact S2|]. split; [lra|].
  rewrite (delta_top 0) in E.
  replace (B2R (one [-] z) - (1 - y)) with (B2R (one [-] z) - (1 - B2R z) - (B2R z - y)) by ring.
  unfold Rminus at 1. eapply Rle_trans; [apply Rabs_triang|]. rewrite Rabs_Ropp. lra.
Qed.

Lemma tens_pok d b o : pok d b -> pok 1 o -> pok (S d) (tens d b o).
Proof.
  intros B O k Hk. cbn [tens fst snd]. destruct (Nat.eqb_spec k d) as [->|N].
  - rewrite delta_top. rewrite <- (delta_top 0). apply (O 0%nat Nat.lt_0_1).
  - assert (Hd : (k < d)%nat) by lia. destruct (B k Hd) as (F & X & Y & E). split; [exact F|]. split; [exact X|]. split; [exact Y|].
    rewrite delta_S by exact Hd. pose proof (u_pos prec). assert (0 <= (K + 2) * u) by (apply Rmult_le_pos; lra). lra.
Qed.
Lemma cone_pok d r b o : pok d b -> pok 1 o -> pok (S d) (cone d r b o).
Proof.
  intros B O k Hk. cbn [cone fst snd]. destruct (Nat.eqb_spec k d) as [->|N].
  - rewrite delta_top. rewrite <- (delta_top 0). apply (O 0%nat Nat.lt_0_1).
  - assert (Hd : (k < d)%nat) by lia. destruct (B k Hd) as (F & X & Y & E).
    destruct (scale_ok o O) as (S1 & S2 & S3 & S4). cbv zeta in *. set (s := one [-] fst (fst o) 0%nat) in *.
    set (x := fst (fst b) k) in *. set (y := fst (snd b) k) in *. set (z := 1 - fst (snd o) 0%nat) in *.
    assert (P01 : 0 <= B2R s * B2R x <= 1).
    { split; [apply Rmult_le_pos; lra|]. rewrite <- (Rmult_1_l 1). apply Rmult_le_compat; lra. }
    destruct (fmul_ok prec emax Hp He H2 s x S1 F) as (M1 & M2).
    { rewrite Rabs_pos_eq by lra. pose proof (one_max prec emax He H2). lra. }
    rewrite M1. split; [exact M2|]. split; [apply rnd_01; auto|]. split.
    { split; [apply Rmult_le_pos; lra|]. rewrite <- (Rmult_1_l 1). apply Rmult_le_compat; lra. }
    rewrite delta_S by exact Hd.
    assert (RE : Rabs (rnd (B2R s * B2R x) - B2R s * B2R x) <= u) by (apply rnd_err; auto; rewrite Rabs_pos_eq by lra; lra).
    replace (rnd (B2R s * B2R x) - z * y) with ((rnd (B2R s * B2R x) - B2R s * B2R x) + ((B2R s - z) * B2R x + z * (B2R x - y))) by ring.
    eapply Rle_trans; [apply Rabs_triang|]. pose proof (Rabs_triang ((B2R s - z) * B2R x) (z * (B2R x - y))) as T.
    rewrite !Rabs_mult, (Rabs_pos_eq (B2R x)), (Rabs_pos_eq z) in T by lra.
    assert (Rabs (B2R s - z) * B2R x <= (K + 1) * u) by (pose proof (Rabs_pos (B2R s - z)); nra).
    assert (z * Rabs (B2R x - y) <= delta d k) by (pose proof (Rabs_pos (B2R x - y)); nra).
    replace ((K + 2) * u) with ((K + 1) * u + u) by ring. lra.
Qed.

Lemma pow_c_ge k : 1 <= (1 + c * u) ^ k.
Proof. pose proof c_pos. apply pow_R1_Rle. lra. Qed.

Lemma prod_rok d A a m L M :
  rok d A m L -> rok 1 a 1 M -> 1 <= A -> 1 <= a ->
  A * a * (1 + c * u) ^ (m + 2) <= top -> INR (length L * length M) * eta <= u ->
  wok (fun p => snd (fst (fst p)) [*] snd (fst (snd p))) (fun p => snd (snd (fst p)) * snd (snd (snd p))) (list_prod L M)
    (A * a) ((1 + c * u) ^ (m + 2) - 1).
Proof.
  intros (_ & W) (_ & V) A1 a1 T N. pose proof c_pos as C0. pose proof (u_pos prec) as U.
  pose proof (pow_c_ge m) as Gm. pose proof (pow_c_ge 1) as G1.
  assert (E : (1 + c * u) ^ (m + 2) = (1 + c * u) ^ m * (1 + c * u) * (1 + c * u)) by (rewrite pow_add; cbn; ring).
  assert (Aa : 0 < A * a) by (apply Rmult_lt_0_compat; lra).
  assert (KU : 0 <= K * u) by (apply Rmult_le_pos; lra).
  apply (wok_weaken _ _ _ (A * a) ((1 + ((1 + c * u) ^ m - 1)) * (1 + ((1 + c * u) ^ 1 - 1)) * (1 + 2 * u) - 1)).
  - apply (wok_prod _ _ L A ((1 + c * u) ^ m - 1) _ _ M a ((1 + c * u) ^ 1 - 1) W V A1 a1); try assumption; try lra.
    eapply Rle_trans; [|exact T]. rewrite E, pow_1.
    replace (A * (1 + ((1 + c * u) ^ m - 1)) * (a * (1 + (1 + c * u - 1)))) with (A * a * ((1 + c * u) ^ m * (1 + c * u)) * 1) by ring.
    replace (A * a * ((1 + c * u) ^ m * (1 + c * u) * (1 + c * u))) with (A * a * ((1 + c * u) ^ m * (1 + c * u)) * (1 + c * u)) by ring.
    apply Rmult_le_compat_l; [|lra]. apply Rmult_le_pos; [lra|]. apply Rmult_le_pos; lra.
  - lra.
  - rewrite E, pow_1. apply Rplus_le_compat_r.
    replace (1 + ((1 + c * u) ^ m - 1)) with ((1 + c * u) ^ m) by ring. replace (1 + (1 + c * u - 1)) with (1 + c * u) by ring.
    apply Rmult_le_compat_l; [apply Rmult_le_pos; lra|lra].
  - pose proof (pow_c_ge (m + 2)). lra.
Qed.

Lemma tens_rok d A a m L M :
  rok d A m L -> rok 1 a 1 M -> 1 <= A -> 1 <= a ->
  A * a * (1 + c * u) ^ (m + 2) <= top -> INR (length L * length M) * eta <= u ->
  rok (S d) (A * a) (m + 2) (pairsOf (tens d) L M).
Proof.
  intros HL HM A1 a1 T N. split.
  - intros p I. apply in_map_iff in I. destruct I as ([b o] & <- & I). apply in_prod_iff in I. destruct I.
    apply tens_pok; [now apply HL|now apply HM].
  - apply wok_map. cbn [tens fst snd]. now apply (prod_rok d).
Qed.
Lemma cone_rok d r A a m L M :
  rok d A m L -> rok 1 a 1 M -> 1 <= A -> 1 <= a ->
  A * a * (1 + c * u) ^ (m + (2 + d)) <= top -> INR (length L * length M) * eta <= u ->
  rok (S d) (A * a) (m + (2 + d)) (pairsOf (cone d r) L M).
Proof.
  intros HL HM A1 a1 T N. pose proof c_pos as C0. split.
  - intros p I. apply in_map_iff in I. destruct I as ([b o] & <- & I). apply in_prod_iff in I. destruct I.
    apply cone_pok; [now apply HL|now apply HM].
  - apply wok_map. cbn [cone fst snd].
    assert (Aa : 1 <= A * a) by nra.
    assert (T2 : A * a * (1 + c * u) ^ (m + 2) <= top).
    { eapply Rle_trans; [|exact T]. apply Rmult_le_compat_l; [lra|]. apply Rle_pow; [lra|lia]. }
    pose proof (prod_rok d A a m L M HL HM A1 a1 T2 N) as W. destruct r.
    + eapply wok_weaken; [exact W|lra| |pose proof (pow_c_ge (m + (2 + d))); lra].
      apply Rplus_le_compat_r, Rle_pow; [lra|lia].
    + replace (m + (2 + d))%nat with (m + 2 + d)%nat in * by lia.
      apply (wok_iter (list_prod L M) (A * a) (m + 2) (fun p => one [-] fst (fst (snd p)) 0%nat) (fun p => 1 - fst (snd (snd p)) 0%nat) d
        (fun p => snd (fst (fst p)) [*] snd (fst (snd p))) (fun p => snd (snd (fst p)) * snd (snd (snd p))) W Aa T).
      * rewrite prod_length. exact N.
      * intros [b o] I. apply in_prod_iff in I. destruct I as (_ & I). cbn [fst snd]. apply scale_ok. now apply HM.
Qed.
Lemma rok_weaken d A A' m m' L : rok d A m L -> A <= A' -> (m <= m')%nat -> rok d A' m' L.
Proof.
  intros (P & W) HA Hm. pose proof c_pos. split; [exact P|]. eapply wok_weaken; [exact W|exact HA| |].
  - apply Rplus_le_compat_r, Rle_pow; [lra|lia].
  - pose proof (pow_c_ge m'). lra.
Qed.
End FQ.
