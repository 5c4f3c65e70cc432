(** Degrees and coefficient bounds of the integrands that the multilinear maps produce. *)
From Coq Require Import NArith PeanoNat Bool List Lia Reals Lra FunctionalExtensionality.
From Coquelicot Require Import Coquelicot.
From Verif Require Import M_Type M_RefTopo M_RefGeo P_Type P_Type2 S_Topo P_Topo P_RSum P_RefGeo P_RefGeo2 P_RefGeo3 P_Det P_DetInv P_MxBridge P_Matrix S_Matrix S_RefGeo S_QuadND P_QuadProd P_KuhnInt P_Gauss M_Matrix M_MultiLinear S_MultiLinear P_ML1 P_ML2 P_Piola P_ColMap S_Disc.
Import ListNotations.
Local Open Scope R_scope.

Lemma polyd_rsum d p n (b : nat -> R) (f : nat -> Vec -> R) : (forall i, (i < n)%nat -> polyd d p (b i) (f i)) ->
  polyd d p (rsum n b) (fun x => rsum n (fun i => f i x)).
Proof.
  induction n as [|n IH]; intro H; cbn [rsum].
  - apply (polyd_weaken d 0 p (Rabs 0)); [apply polyd_const|lia|rewrite Rabs_R0; lra].
  - apply polyd_plus; [apply IH; intros; apply H; lia|apply H; lia].
Qed.
Lemma rsum_const_ n a : rsum n (fun _ => a) = INR n * a.
Proof. induction n as [|n IH]; cbn [rsum]; [cbn; ring|]. rewrite IH, S_INR. ring. Qed.
Lemma polyd_rsum_const d p n B (f : nat -> Vec -> R) : (forall i, (i < n)%nat -> polyd d p B (f i)) ->
  polyd d p (INR n * B) (fun x => rsum n (fun i => f i x)).
Proof. intro H. rewrite <- rsum_const_. now apply polyd_rsum. Qed.
Lemma Rabs_m1_ : Rabs (-1) = 1. Proof. rewrite Rabs_left; lra. Qed.
Lemma polyd_neg d p B f : polyd d p B f -> polyd d p B (fun x => - f x).
Proof.
  intro H. apply (polyd_ext d p B (fun x => (-1) * f x)); [|intros x; lra].
  replace B with (Rabs (-1) * B) by (rewrite (Rabs_left (-1)) by lra; ring). now apply polyd_scal.
Qed.
Lemma polyd_sign d p B f (s : R) : Rabs s <= 1 -> polyd d p B f -> polyd d p B (fun x => s * f x).
Proof.
  intros Hs H. apply (polyd_weaken d p p (Rabs s * B)); [now apply polyd_scal|lia|].
  destruct H as (P & _ & H & _). pose proof (pnorm_pos P). nra.
Qed.
Lemma polyd_pos d p B f : polyd d p B f -> 0 <= B.
Proof. intros (P & _ & H & _). pose proof (pnorm_pos P). lra. Qed.

(** ** substituting polynomials of degree [m] *)
Lemma polyd_monomial_m d d' e (G : Vec -> Vec) m B : (forall i, (i < d')%nat -> polyd d m B (fun x => G x i)) ->
  polyd d (degree d' e * m) (B ^ degree d' e) (fun x => monomial d' e (G x)).
Proof.
  induction d' as [|d' IH]; intros H; cbn [monomial degree].
  - cbn [pow Nat.mul]. rewrite <- Rabs_R1 at 1. apply polyd_const.
  - rewrite pow_add, Nat.mul_add_distr_r. apply (polyd_mult d _ _ _ _ (fun x => monomial d' e (G x)) (fun x => G x d' ^ e d')); [apply IH; intros; apply H; lia|].
    apply (polyd_pow d m B (fun x => G x d')). apply H. lia.
Qed.
Lemma polyd_comp_m d d' P p (G : Vec -> Vec) m B : 1 <= B -> (forall i, (i < d')%nat -> polyd d m B (fun x => G x i)) -> pdegree_le d' P p ->
  polyd d (p * m) (pnorm P * B ^ p) (fun x => peval d' P (G x)).
Proof.
  intros HB HG D. induction P as [|[c e] P IH]; cbn [peval pnorm].
  - apply (polyd_weaken d 0 (p * m) (Rabs 0)); [apply polyd_const|lia|rewrite Rabs_R0; lra].
  - rewrite Rmult_plus_distr_r. apply polyd_plus; [|apply IH; intros c' e' I; apply (D c' e' (or_intror I))].
    specialize (D c e (or_introl eq_refl)).
    apply (polyd_weaken d (degree d' e * m) (p * m) (Rabs c * B ^ degree d' e)); [|now apply Nat.mul_le_mono_r|].
    + apply (polyd_scal d (degree d' e * m) _ (fun x => monomial d' e (G x)) c). now apply polyd_monomial_m.
    + apply Rmult_le_compat_l; [apply Rabs_pos|]. now apply Rle_pow.
Qed.
Lemma polyd_comp_f d d' f p N (G : Vec -> Vec) m B : 1 <= B -> (forall i, (i < d')%nat -> polyd d m B (fun x => G x i)) -> polyd d' p N f ->
  polyd d (p * m) (N * B ^ p) (fun x => f (G x)).
Proof.
  intros HB HG (P & D & HN & E). apply (polyd_ext d _ _ (fun x => peval d' P (G x))); [|intros x; apply E].
  apply (polyd_weaken d (p * m) _ (pnorm P * B ^ p)); [now apply polyd_comp_m|lia|]. apply Rmult_le_compat_r; [apply pow_le; lra|exact HN].
Qed.

(** ** determinants *)
Lemma polyd_det d n q B : forall (A : nat -> nat -> Vec -> R), (forall i j, (i < n)%nat -> (j < n)%nat -> polyd d q B (A i j)) ->
  polyd d (n * q) (INR (fact n) * B ^ n) (fun x => detR n (fun i j => A i j x)).
Proof.
  induction n as [|n IH]; intros A H.
  - apply (polyd_ext d _ _ (fun _ => 1)); [|intros x; apply detR_0]. cbn. rewrite Rmult_1_r, <- Rabs_R1 at 1. apply polyd_const.
  - set (sk := fun j k : nat => if Nat.ltb k j then k else S k).
    assert (SK : forall j k, (k < n)%nat -> (sk j k < S n)%nat) by (intros j k Hk; unfold sk; destruct (Nat.ltb k j); lia).
    apply (polyd_ext d _ _ (fun x => rsum (S n) (fun j => ((-1)^j * A 0%nat j x) * detR n (fun i k => A (S i) (sk j k) x)))).
    2:{ intro x. rewrite detR_expand. apply rsum_ext. intros j Hj. reflexivity. }
    rewrite fact_simpl, mult_INR, Rmult_assoc. apply polyd_rsum_const. intros j Hj. cbn [Nat.mul].
    apply (polyd_weaken d (q + n * q) _ (B * (INR (fact n) * B ^ n))); [|lia|cbn [pow]; lra].
    apply (polyd_mult d q (n * q)).
    + apply polyd_sign; [|apply H; lia]. rewrite <- RPow_abs, Rabs_m1_, pow1. lra.
    + apply IH. intros i k Hi Hk. apply H; [lia|now apply SK].
Qed.
Lemma polyd_det_row d q B q' B' : forall n r (A : nat -> nat -> Vec -> R), (r < n)%nat ->
  (forall j, (j < n)%nat -> polyd d q' B' (A r j)) ->
  (forall i j, (i < n)%nat -> (j < n)%nat -> i <> r -> polyd d q B (A i j)) ->
  polyd d (q' + (n - 1) * q) (INR (fact n) * (B' * B ^ (n - 1))) (fun x => detR n (fun i j => A i j x)).
Proof.
  induction n as [|n IH]; intros r A Hr H1 H2; [lia|].
  set (sk := fun j k : nat => if Nat.ltb k j then k else S k).
  assert (SK : forall j k, (k < n)%nat -> (sk j k < S n)%nat) by (intros j k Hk; unfold sk; destruct (Nat.ltb k j); lia).
  apply (polyd_ext d _ _ (fun x => rsum (S n) (fun j => ((-1)^j * A 0%nat j x) * detR n (fun i k => A (S i) (sk j k) x)))).
  2:{ intro x. rewrite detR_expand. apply rsum_ext. intros j Hj. reflexivity. }
  assert (SG : forall j, Rabs ((-1) ^ j) <= 1) by (intro j; rewrite <- RPow_abs, Rabs_m1_, pow1; lra).
  rewrite fact_simpl, mult_INR, Rmult_assoc. apply polyd_rsum_const. intros j Hj. replace (S n - 1)%nat with n by lia.
  destruct r as [|r].
  - apply (polyd_weaken d (q' + n * q) _ (B' * (INR (fact n) * B ^ n))); [|lia|lra].
    apply (polyd_mult d q' (n * q)); [apply polyd_sign; auto|]. apply polyd_det. intros i k Hi Hk. apply H2; [lia|now apply SK|lia].
  - destruct n as [|n]; [lia|].
    assert (BP : polyd d q B (A 0%nat j)) by (apply H2; lia).
    apply (polyd_weaken d (q + (q' + (S n - 1) * q)) _ (B * (INR (fact (S n)) * (B' * B ^ (S n - 1))))).
    + apply (polyd_mult d q (q' + (S n - 1) * q)); [now apply polyd_sign|]. apply (IH r (fun i k => A (S i) (sk j k))); [lia| |].
      * intros k Hk. apply H1. now apply SK.
      * intros i k Hi Hk Hn. apply H2; [lia|now apply SK|lia].
    + replace (S n - 1)%nat with n by lia. cbn [Nat.mul]. lia.
    + replace (S n - 1)%nat with n by lia. cbn [pow]. lra.
Qed.

(** ** the maps *)
Definition pm (T : Topo) (m : nat) (B : R) (c : nat -> R) : Prop := exists G H,
  polyd (tdim T) m B G /\ (forall j, (j < tdim T)%nat -> polyd (tdim T) (m - 1) B (H j)) /\
  forall x, smooth 0 T x -> phi T c x = G x /\ forall j, (j < tdim T)%nat -> dphi T c j x = H j x.

Lemma smooth_base b x : smooth 0 (Pyr b) x -> b = Pt \/ (1 - x (tdim b) <> 0 /\ smooth 0 b (base b x)).
Proof.
  cbn [smooth]. intros [H|[H1 H2]]; [now left|right]. split; [|exact H2]. intro E. rewrite E, Rabs_R0 in H1. lra.
Qed.
Lemma simp_affine T R0 : forall c, simp T -> (forall i, (i < nv T)%nat -> Rabs (c i) <= R0) -> exists o (M : nat -> R),
  Rabs o <= R0 /\ (forall j, (j < tdim T)%nat -> Rabs (M j) <= 2 * R0) /\
  forall x, smooth 0 T x -> phi T c x = o + rsum (tdim T) (fun j => M j * x j) /\ forall j, (j < tdim T)%nat -> dphi T c j x = M j.
Proof.
  induction T as [|b IH|b IH]; intros c HT Hc; cbn [simp] in HT.
  - exists (c 0%nat), (fun _ => 0). split; [apply Hc; cbn; lia|]. split; [cbn; intros; lia|]. intros x _. cbn. split; [ring|intros; lia].
  - subst b. assert (C0 : Rabs (c 0%nat) <= R0) by (apply Hc; cbn; lia). assert (C1 : Rabs (c 1%nat) <= R0) by (apply Hc; cbn; lia).
    exists (c 0%nat), (fun _ => c 1%nat - c 0%nat). split; [exact C0|]. split.
    + intros j _. unfold Rminus. eapply Rle_trans; [apply Rabs_triang|]. rewrite Rabs_Ropp. lra.
    + intros x _. cbn. unfold top. cbn. split; [ring|]. intros j Hj. replace j with 0%nat by lia. cbn. ring.
  - assert (NP : (0 < nv b)%nat) by apply nv_pos.
    destruct (IH c HT ltac:(intros i Hi; apply Hc; cbn; lia)) as (o & M & Ho & HM & HV).
    assert (C1 : Rabs (c (nv b)) <= R0) by (apply Hc; cbn; lia).
    exists o, (fun j => if Nat.ltb j (tdim b) then M j else c (nv b) - o). split; [exact Ho|]. split.
    + intros j Hj. destruct (Nat.ltb_spec j (tdim b)); [auto|]. unfold Rminus. eapply Rle_trans; [apply Rabs_triang|]. rewrite Rabs_Ropp. lra.
    + intros x Hs. cbn [phi dphi tdim rsum]. rewrite Nat.ltb_irrefl.
      rewrite (rsum_ext (tdim b) _ (fun j => M j * x j)) by (intros j Hj; now rewrite (proj2 (Nat.ltb_lt _ _) Hj)).
      destruct (smooth_base b x Hs) as [->|[L Hb]].
      * cbn in *. destruct (HV (base Pt x) I) as [V1 _]. cbn in V1. split; [rewrite V1; ring|]. intros j Hj. replace j with 0%nat by lia. cbn. lra.
      * destruct (HV _ Hb) as [V1 V2]. rewrite V1.
        assert (S1 : rsum (tdim b) (fun j => M j * base b x j) = rsum (tdim b) (fun j => M j * x j) / (1 - x (tdim b))).
        { unfold Rdiv. rewrite <- rsum_scal_r. apply rsum_ext. intros j Hj. unfold base. field. exact L. }
        rewrite S1. split; [field; exact L|]. intros j Hj. destruct (Nat.ltb_spec j (tdim b)) as [Lj|Lj]; [now apply V2|].
        rewrite (rsum_ext (tdim b) (fun l => base b x l * dphi b c l (base b x)) (fun l => M l * base b x l)) by (intros l Hl; rewrite (V2 l Hl); ring).
        rewrite S1. ring.
Qed.

Lemma three_ge n : 1 + 2 * INR n <= 3 ^ n.
Proof. induction n as [|n IH]; [cbn; lra|]. rewrite S_INR. cbn [pow]. pose proof (pos_INR n). lra. Qed.
Lemma polyd_lin d (o : R) (M : nat -> R) R0 : 0 <= R0 -> Rabs o <= R0 -> (forall j, (j < d)%nat -> Rabs (M j) <= 2 * R0) ->
  polyd d 1 (3 ^ d * R0) (fun x => o + rsum d (fun j => M j * x j)).
Proof.
  intros HR Ho HM. apply (polyd_weaken d 1 1 (Rabs o + INR d * (2 * R0))); [|lia|pose proof (three_ge d); nra].
  apply polyd_plus; [apply (polyd_weaken d 0 1 (Rabs o)); [apply polyd_const|lia|lra]|]. apply polyd_rsum_const. intros j Hj.
  apply (polyd_weaken d 1 1 (Rabs (M j) * 1)); [|lia|specialize (HM j Hj); lra]. apply polyd_scal. now apply polyd_coord.
Qed.
Lemma pm_lin T (o : R) (M : nat -> R) R0 c : 0 <= R0 -> Rabs o <= R0 -> (forall j, (j < tdim T)%nat -> Rabs (M j) <= 2 * R0) ->
  (forall x, smooth 0 T x -> phi T c x = o + rsum (tdim T) (fun j => M j * x j) /\ forall j, (j < tdim T)%nat -> dphi T c j x = M j) ->
  pm T 1 (3 ^ tdim T * R0) c.
Proof.
  intros HR Ho HM HV. exists (fun x => o + rsum (tdim T) (fun j => M j * x j)), (fun j _ => M j).
  split; [now apply polyd_lin|]. split; [|exact HV]. intros j Hj.
  apply (polyd_weaken (tdim T) 0 (1 - 1) (Rabs (M j))); [apply polyd_const|lia|]. specialize (HM j Hj). pose proof (three_ge (tdim T)).
  assert (1 <= INR (tdim T)) by (change 1 with (INR 1); apply le_INR; lia). nra.
Qed.
Lemma polyd_more d d' p B f : (d <= d')%nat -> polyd d p B f -> polyd d' p B f.
Proof.
  intros Hd H. apply (polyd_weaken d' (p * 1) p (B * 1 ^ p)); [|lia|rewrite pow1; lra].
  apply (polyd_comp_f d' d f p B (fun x => x) 1 1); [lra| |exact H]. intros i Hi. apply polyd_coord. lia.
Qed.
Lemma pdeg_pos T : (0 < tdim T)%nat -> (1 <= pdeg T)%nat.
Proof. destruct T; cbn; lia. Qed.
Lemma pm_polyT T R0 : 0 <= R0 -> forall c, polyT T -> (forall i, (i < nv T)%nat -> Rabs (c i) <= R0) -> pm T (pdeg T) (3 ^ tdim T * R0) c.
Proof.
  intro HR. induction T as [|b IH|b IH]; intros c HT Hc; cbn [polyT] in HT.
  - exists (fun _ => c 0%nat), (fun _ _ => 0). split; [|split; [cbn; intros; lia|intros x _; cbn; split; [reflexivity|intros; lia]]].
    apply (polyd_weaken 0 0 0 (Rabs (c 0%nat))); [apply polyd_const|lia|]. specialize (Hc 0%nat ltac:(cbn; lia)). cbn. lra.
  - destruct (IH c HT ltac:(intros i Hi; apply Hc; cbn; lia)) as (G & H & PG & PH & V).
    destruct (IH (top b c) HT ltac:(intros i Hi; apply Hc; cbn; lia)) as (G' & H' & PG' & PH' & V').
    set (d := tdim b) in *. cbn [pdeg tdim pow]. fold d. set (B := 3 ^ d * R0) in *. replace (3 * 3 ^ d * R0) with (3 * B) by (unfold B; ring).
    apply (polyd_more d (S d) _ _ _ ltac:(lia)) in PG. apply (polyd_more d (S d) _ _ _ ltac:(lia)) in PG'.
    assert (X : polyd (S d) 1 1 (fun x => x d)) by (apply polyd_coord; lia).
    assert (X' : polyd (S d) 1 2 (fun x => 1 - x d)).
    { apply (polyd_weaken (S d) 1 1 (1 + 1)); [|lia|lra]. apply (polyd_plus (S d) 1 1 1 (fun _ => 1) (fun x => - x d)); [|now apply polyd_neg].
      apply (polyd_weaken (S d) 0 1 (Rabs 1)); [apply polyd_const|lia|rewrite Rabs_R1; lra]. }
    assert (C : forall m F F', polyd (S d) m B F -> polyd (S d) m B F' -> polyd (S d) (S m) (3 * B) (fun x => (1 - x d) * F x + x d * F' x)).
    { intros m F F' P P'. apply (polyd_weaken (S d) (1 + m) (S m) (2 * B + 1 * B)); [|lia|lra].
      apply polyd_plus; now apply polyd_mult. }
    exists (fun x => (1 - x d) * G x + x d * G' x), (fun j x => if Nat.ltb j d then (1 - x d) * H j x + x d * H' j x else G' x - G x).
    split; [now apply C|]. split.
    + intros j Hj. replace (S (pdeg b) - 1)%nat with (pdeg b) by lia. destruct (Nat.ltb_spec j d) as [L|L].
      * pose proof (pdeg_pos b ltac:(fold d; lia)). replace (pdeg b) with (S (pdeg b - 1)) by lia.
        apply C; [apply (polyd_more d (S d)); [lia|now apply PH]|apply (polyd_more d (S d)); [lia|now apply PH']].
      * pose proof (polyd_pos _ _ _ _ PG). apply (polyd_weaken (S d) (pdeg b) _ (B + B)); [|lia|lra].
        apply (polyd_plus (S d) (pdeg b) B B G' (fun x => - G x)); [exact PG'|now apply polyd_neg].
    + intros x Hs. cbn [smooth] in Hs. destruct (V x Hs) as [V1 V2]. destruct (V' x Hs) as [V1' V2']. cbn [phi dphi]. fold d.
      rewrite V1, V1'. split; [reflexivity|]. intros j Hj. destruct (Nat.ltb_spec j d) as [L|L]; [|reflexivity]. now rewrite (V2 j L), (V2' j L).
  - destruct (simp_affine (Pyr b) R0 c HT Hc) as (o & M & Ho & HM & HV). cbn [pdeg]. now apply (pm_lin (Pyr b) o M R0 c).
Qed.

(** ** derivatives of polynomials *)
Lemma pnorm_pder n k P p : (k < n)%nat -> pdegree_le n P p -> pnorm (pder k P) <= INR p * pnorm P.
Proof.
  intros Hk. induction P as [|[c e] P IH]; intro D; cbn [pder map pnorm fst snd]; [cbn; lra|].
  fold (pder k P). rewrite Rabs_mult, Rmult_plus_distr_l.
  assert (L : (e k <= p)%nat).
  { specialize (D c e (or_introl eq_refl)). enough ((e k <= degree n e)%nat) by lia. clear -Hk. induction n as [|n IHn]; [lia|]. cbn [degree]. destruct (Nat.eq_dec k n) as [->|]; [lia|]. specialize (IHn ltac:(lia)). lia. }
  apply Rplus_le_compat; [|apply IH; intros c' e' I; apply (D c' e' (or_intror I))].
  rewrite (Rabs_pos_eq (INR (e k))) by apply pos_INR. rewrite Rmult_comm. apply Rmult_le_compat_r; [apply Rabs_pos|now apply le_INR].
Qed.
Lemma pder_zero n k P : (k < n)%nat -> pdegree_le n P 0 -> forall x, peval n (pder k P) x = 0.
Proof.
  intros Hk. induction P as [|[c e] P IH]; intros D x; cbn [pder map peval fst snd]; [reflexivity|]. fold (pder k P).
  rewrite IH by (intros c' e' I; apply (D c' e' (or_intror I))).
  assert (L : e k = 0%nat).
  { specialize (D c e (or_introl eq_refl)). enough ((e k <= degree n e)%nat) by lia. clear -Hk. induction n as [|n IHn]; [lia|]. cbn [degree]. destruct (Nat.eq_dec k n) as [->|]; [lia|]. specialize (IHn ltac:(lia)). lia. }
  rewrite L. cbn [INR]. ring.
Qed.
Lemma polyd_pder n k P p A : (k < n)%nat -> pdegree_le n P p -> pnorm P <= A -> polyd n (p - 1) (INR p * A) (peval n (pder k P)).
Proof.
  intros Hk D HA.
  assert (B : pnorm (pder k P) <= INR p * A) by (eapply Rle_trans; [exact (pnorm_pder n k P p Hk D)|]; apply Rmult_le_compat_l; [apply pos_INR|exact HA]).
  (* drop the terms that do not contain the variable *)
  assert (E : exists Q, pdegree_le n Q (p - 1) /\ pnorm Q <= pnorm (pder k P) /\ forall x, peval n (pder k P) x = peval n Q x).
  { clear HA B. induction P as [|[c e] P IH]; [exists []; split; [intros c e []|split; [cbn; lra|intro x; reflexivity]]|].
    destruct IH as (Q & D1 & D2 & D3); [intros c' e' I; apply (D c' e' (or_intror I))|]. cbn [pder map pnorm peval fst snd]. fold (pder k P).
    destruct (Nat.eq_dec (e k) 0) as [Z|Z].
    - exists Q. split; [exact D1|]. split; [pose proof (Rabs_pos (c * INR (e k))); lra|]. intro x. rewrite Z, D3. cbn [INR]. ring.
    - exists ((c * INR (e k), pd e k) :: Q). split; [|split; [cbn; lra|intro x; cbn [peval]; now rewrite D3]].
      intros c' e' [I|I]; [|now apply (D1 c')]. injection I as _ <-. specialize (D c e (or_introl eq_refl)).
      pose proof (degree_pd n e k Hk ltac:(lia)). lia. }
  destruct E as (Q & D1 & D2 & D3). exists Q. split; [exact D1|]. split; [lra|exact D3].
Qed.

(** ** facets of the reference elements *)
Lemma forg_abs T : forall f k, 0 <= forg T f k <= 1.
Proof.
  induction T as [|b IH|b IH]; intros f k; destruct f; cbn [forg]; try apply IH; unfold upd, vzero; try lra; destruct (Nat.eqb _ _); try apply IH; lra.
Qed.
Lemma fjt_abs T : forall f i k, Rabs (fjt T f i k) <= 1.
Proof.
  induction T as [|b IH|b IH]; intros f i k; destruct f; cbn [fjt]; try apply IH; unfold mzero; try (rewrite Rabs_R0; lra).
  - destruct (Nat.eq_dec i (tdim (ftype b f))) as [->|E].
    + rewrite mupd_row. unfold upd. destruct (Nat.eqb _ _); [rewrite Rabs_R1; lra|apply IH].
    + rewrite mupd_ne by assumption. apply IH.
  - destruct (Nat.eq_dec i (tdim (ftype b f))) as [->|E].
    + rewrite mupd_row. unfold upd. destruct (Nat.eqb _ _); [rewrite Rabs_R1; lra|]. rewrite neg_row_row. destruct (Nat.ltb _ _); [|apply IH].
      rewrite Rabs_Ropp. pose proof (forg_abs b f k). rewrite Rabs_pos_eq; lra.
    + rewrite mupd_ne, neg_row_ne by assumption. apply IH.
Qed.
Lemma polyd_Emb T f k : polyd (tdim (ftype T f)) 1 (INR (S (tdim (ftype T f)))) (fun y => Emb T f y k).
Proof.
  set (d := tdim (ftype T f)). apply (polyd_weaken d 1 1 (1 + INR d * 1)); [|lia|rewrite S_INR; lra].
  apply (polyd_ext d 1 _ (fun y => forg T f k + rsum d (fun j => fjt T f j k * y j))); [|intro y; apply Emb_Lin].
  pose proof (forg_abs T f k).
  apply polyd_plus; [apply (polyd_weaken d 0 1 (Rabs (forg T f k))); [apply polyd_const|lia|rewrite Rabs_pos_eq; lra]|].
  apply polyd_rsum_const. intros j Hj. apply (polyd_weaken d 1 1 (Rabs (fjt T f j k) * 1)); [|lia|pose proof (fjt_abs T f j k); lra].
  apply polyd_scal. now apply polyd_coord.
Qed.
Lemma nrm_abs T : forall f, (0 <= dot (tdim T) (nrm T f) (forg T f) <= 1) /\ forall k, Rabs (nrm T f k) <= 1.
Proof.
  assert (Z : forall k, Rabs (vzero k) <= 1) by (intro k; unfold vzero; rewrite Rabs_R0; lra).
  assert (U : forall n a k, Rabs a <= 1 -> Rabs (upd vzero n a k) <= 1) by (intros n a k Ha; unfold upd; destruct (Nat.eqb _ _); auto).
  assert (D0 : forall n x, dot n vzero x = 0) by (intros n x; unfold dot, vzero; apply rsum_0; intros; ring).
  assert (DU : forall n v a x, v n = 0 -> dot (S n) (upd v n a) x = dot n v x + a * x n).
  { intros n v a x Hv. unfold dot. cbn [rsum]. rewrite upd_eq. f_equal. apply rsum_ext. intros k Hk. now rewrite upd_ne by lia. }
  assert (A1 : Rabs (-1) <= 1) by (rewrite Rabs_m1_; lra). assert (A2 : Rabs 1 <= 1) by (rewrite Rabs_R1; lra).
  induction T as [|b IH|b IH]; intros f; destruct f; cbn [nrm forg tdim]; rewrite ?D0; try (split; [lra|exact Z]).
  - destruct (IH f) as [I1 I2]. split; [|exact I2]. unfold dot in *. cbn [rsum]. rewrite (nrm_support b f (tdim b)) by lia. lra.
  - split; [|intro k; now apply U]. rewrite DU, D0, forg_support by (lia || reflexivity). lra.
  - split; [|intro k; now apply U]. rewrite DU, D0, upd_eq by reflexivity. lra.
  - split; [|intro k; now apply U]. rewrite DU, D0, forg_support by (lia || reflexivity). lra.
  - destruct (IH f) as [I1 I2]. split.
    + rewrite DU by (apply nrm_support; lia). rewrite (forg_support b f (tdim b)) by lia. lra.
    + intro k. unfold upd. destruct (Nat.eqb _ _); [rewrite Rabs_pos_eq; lra|apply I2].
  - split; [|intro k; now apply U]. rewrite DU, D0, upd_eq by reflexivity. lra.
Qed.
