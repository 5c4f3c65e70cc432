(** The multilinear map, its first and its second derivatives are smooth in collapsed coordinates. *)
From Coq Require Import NArith PeanoNat Bool List Lia Reals Lra FunctionalExtensionality.
From Coquelicot Require Import Coquelicot.
From Verif Require Import M_Type M_RefTopo M_RefGeo M_Matrix M_MultiLinear S_Topo S_RefGeo S_MultiLinear P_RSum P_RefGeo P_RefGeo2 P_RefGeo3 P_Gauss2 P_QuadProd P_Gauss S_Gauss S_QuadND P_RefVol P_ML1 P_ML2 P_Col1.
Import ListNotations.
Local Open Scope R_scope.

Definition base (b : Topo) (x : Vec) : Vec := fun k => x k / (1 - x (tdim b)).
Definition top (b : Topo) (c : nat -> R) : nat -> R := fun i => c (nv b + i)%nat.

Fixpoint phi (T : Topo) (c : nat -> R) (x : Vec) : R :=
  match T with
  | Pt => c 0%nat
  | Pri b => (1 - x (tdim b)) * phi b c x + x (tdim b) * phi b (top b c) x
  | Pyr b => (1 - x (tdim b)) * phi b c (base b x) + x (tdim b) * c (nv b)
  end.
Fixpoint dphi (T : Topo) (c : nat -> R) (j : nat) (x : Vec) : R :=
  match T with
  | Pt => 0
  | Pri b => if Nat.ltb j (tdim b) then (1 - x (tdim b)) * dphi b c j x + x (tdim b) * dphi b (top b c) j x
             else phi b (top b c) x - phi b c x
  | Pyr b => if Nat.ltb j (tdim b) then dphi b c j (base b x)
             else c (nv b) - phi b c (base b x) + rsum (tdim b) (fun l => base b x l * dphi b c l (base b x))
  end.
Fixpoint hphi (T : Topo) (c : nat -> R) (j k : nat) (x : Vec) : R :=
  match T with
  | Pt => 0
  | Pri b => if Nat.ltb j (tdim b) then
               if Nat.ltb k (tdim b) then (1 - x (tdim b)) * hphi b c j k x + x (tdim b) * hphi b (top b c) j k x
               else dphi b (top b c) j x - dphi b c j x
             else if Nat.ltb k (tdim b) then dphi b (top b c) k x - dphi b c k x else 0
  | Pyr b => (if Nat.ltb j (tdim b) then
               if Nat.ltb k (tdim b) then hphi b c j k (base b x)
               else rsum (tdim b) (fun l => base b x l * hphi b c j l (base b x))
             else if Nat.ltb k (tdim b) then rsum (tdim b) (fun l => base b x l * hphi b c l k (base b x))
             else rsum (tdim b) (fun m => base b x m * rsum (tdim b) (fun l => base b x l * hphi b c l m (base b x)))) / (1 - x (tdim b))
  end.

Lemma base_ext b x y : (forall k, (k < S (tdim b))%nat -> x k = y k) -> forall k, (k < tdim b)%nat -> base b x k = base b y k.
Proof. intros E k Hk. unfold base. now rewrite !E by lia. Qed.
Lemma phi_ext T : forall c x y, (forall k, (k < tdim T)%nat -> x k = y k) -> phi T c x = phi T c y.
Proof.
  induction T as [|b IH|b IH]; intros c x y E; cbn [phi tdim] in *; [reflexivity| |]; rewrite (E (tdim b)) by lia.
  - rewrite !(IH _ x y) by auto. reflexivity.
  - rewrite (IH _ _ (base b y) (base_ext b x y E)). reflexivity.
Qed.
Lemma dphi_ext T : forall c j x y, (forall k, (k < tdim T)%nat -> x k = y k) -> dphi T c j x = dphi T c j y.
Proof.
  induction T as [|b IH|b IH]; intros c j x y E; cbn [dphi tdim] in *; [reflexivity| |].
  - rewrite (E (tdim b)) by lia. rewrite !(IH _ _ x y), !(phi_ext _ _ x y) by auto. reflexivity.
  - pose proof (base_ext b x y E) as Q. rewrite (IH _ _ _ (base b y) Q), (phi_ext _ _ _ (base b y) Q).
    destruct (Nat.ltb j (tdim b)); [reflexivity|]. f_equal. apply rsum_ext. intros l Hl. now rewrite (Q l Hl), (IH _ _ _ (base b y) Q).
Qed.
Lemma hphi_ext T : forall c j k x y, (forall k, (k < tdim T)%nat -> x k = y k) -> hphi T c j k x = hphi T c j k y.
Proof.
  induction T as [|b IH|b IH]; intros c j k x y E; cbn [hphi tdim] in *; [reflexivity| |]; rewrite (E (tdim b)) by lia.
  - rewrite !(IH _ _ _ x y), !(dphi_ext _ _ _ x y) by auto. reflexivity.
  - pose proof (base_ext b x y E) as Q. f_equal. destruct (Nat.ltb j (tdim b)), (Nat.ltb k (tdim b)).
    + apply IH. exact Q.
    + apply rsum_ext. intros l Hl. now rewrite (Q l Hl), (IH _ _ _ _ _ Q).
    + apply rsum_ext. intros l Hl. now rewrite (Q l Hl), (IH _ _ _ _ _ Q).
    + apply rsum_ext. intros m Hm. rewrite (Q m Hm). f_equal. apply rsum_ext. intros l Hl. now rewrite (Q l Hl), (IH _ _ _ _ _ Q).
Qed.
Lemma hphi_sym T : forall c j k x, hphi T c j k x = hphi T c k j x.
Proof.
  induction T as [|b IH|b IH]; intros c j k x; cbn [hphi]; [reflexivity| |].
  - destruct (Nat.ltb j (tdim b)), (Nat.ltb k (tdim b)); try reflexivity. now rewrite !(IH _ j k).
  - f_equal. destruct (Nat.ltb j (tdim b)), (Nat.ltb k (tdim b)); try reflexivity.
    + apply IH.
    + apply rsum_ext. intros. now rewrite IH.
    + apply rsum_ext. intros. now rewrite IH.
Qed.

(** points of the base below a point of a prism or a pyramid *)
Lemma pri_base b t y k : (k < tdim b)%nat -> pri b t y k = y k.
Proof. intro H. unfold pri. destruct (Nat.eqb_spec k (tdim b)); [lia|reflexivity]. Qed.
Lemma pri_n b t y : pri b t y (tdim b) = t. Proof. unfold pri. now rewrite Nat.eqb_refl. Qed.
Lemma pyr_n b t y : pyr b t y (tdim b) = t. Proof. unfold pyr. now rewrite Nat.eqb_refl. Qed.
Lemma pyr_baseK b t y : (b = Pt \/ t <> 1) -> forall k, (k < tdim b)%nat -> base b (pyr b t y) k = y k.
Proof.
  intros [->|Ht] k Hk; [cbn in Hk; lia|]. unfold base. rewrite pyr_n. unfold pyr. destruct (Nat.eqb_spec k (tdim b)); [lia|]. field. lra.
Qed.

Lemma KD_phi_dphi T : forall c, KD T (phi T c) (dphi T c) /\ forall j, (j < tdim T)%nat -> KD T (dphi T c j) (hphi T c j).
Proof.
  induction T as [|b IH|b IH]; intro c.
  - split; [intros x y; reflexivity|]. cbn [tdim]. intros; lia.
  - assert (L1 : forall k, (k < tdim b)%nat -> Nat.ltb k (tdim b) = true) by (intros; now apply Nat.ltb_lt).
    split; [|intros j Hj; cbn [tdim] in Hj; destruct (Nat.eq_dec j (tdim b)) as [->|N]]; cbn [KD].
    + exists [mkTerm (phi b c) (dphi b c) (fun t => 1 - t) (fun _ => -1); mkTerm (phi b (top b c)) (dphi b (top b c)) (fun t => t) (fun _ => 1)]. split.
      { intros e [<-|[<-|[]]]; cbn [tg td tp tq]; (split; [apply IH|]); [apply C1_om|apply C1_id]. }
      intros t y. cbn [phi dphi lsum fold_right tg td tp tq]. pose proof (pri_base b t y) as Q. rewrite !pri_n, !(phi_ext b _ _ y Q), Nat.ltb_irrefl.
      split; [cbn; ring|]. split; [|cbn; ring]. intros k Hk. rewrite (L1 k Hk), !(dphi_ext b _ _ _ y Q). cbn; ring.
    + exists [mkTerm (phi b (top b c)) (dphi b (top b c)) (fun t => 1) (fun _ => 0); mkTerm (phi b c) (dphi b c) (fun t => -1) (fun _ => 0)]. split.
      { intros e [<-|[<-|[]]]; cbn [tg td tp tq]; (split; [apply IH|apply C1_const]). }
      intros t y. cbn [dphi hphi lsum fold_right tg td tp tq]. pose proof (pri_base b t y) as Q. rewrite !(phi_ext b _ _ y Q), Nat.ltb_irrefl.
      split; [cbn; ring|]. split; [|cbn; ring]. intros k Hk. rewrite (L1 k Hk), !(dphi_ext b _ _ _ y Q). cbn; ring.
    + assert (Hj' : (j < tdim b)%nat) by lia.
      exists [mkTerm (dphi b c j) (hphi b c j) (fun t => 1 - t) (fun _ => -1); mkTerm (dphi b (top b c) j) (hphi b (top b c) j) (fun t => t) (fun _ => 1)]. split.
      { intros e [<-|[<-|[]]]; cbn [tg td tp tq]; (split; [now apply IH|]); [apply C1_om|apply C1_id]. }
      intros t y. cbn [dphi hphi lsum fold_right tg td tp tq]. pose proof (pri_base b t y) as Q. rewrite !pri_n, (L1 j Hj'), !(dphi_ext b _ _ _ y Q), Nat.ltb_irrefl.
      split; [cbn; ring|]. split; [|cbn; ring]. intros k Hk. rewrite (L1 k Hk), !(hphi_ext b _ _ _ _ y Q). cbn; ring.
  - assert (L1 : forall k, (k < tdim b)%nat -> Nat.ltb k (tdim b) = true) by (intros; now apply Nat.ltb_lt).
    split; [|intros j Hj; cbn [tdim] in Hj; destruct (Nat.eq_dec j (tdim b)) as [->|N]]; cbn [KD].
    + exists [mkTerm (phi b c) (dphi b c) (fun t => 1 - t) (fun _ => -1); mkTerm (fun _ => c (nv b)) (fun _ _ => 0) (fun t => t) (fun _ => 1)]. split.
      { intros e [<-|[<-|[]]]; cbn [tg td tp tq]; (split; [|]); [apply IH|apply C1_om|apply KD_const|apply C1_id]. }
      intros t y Ht. cbn [phi dphi lsum fold_right tg td tp tq]. pose proof (pyr_baseK b t y Ht) as Q. rewrite !pyr_n, !(phi_ext b _ _ y Q), Nat.ltb_irrefl.
      split; [cbn; ring|]. split.
      * intros k Hk. rewrite (L1 k Hk), !(dphi_ext b _ _ _ y Q). cbn; ring.
      * rewrite (rsum_ext (tdim b) _ (fun l => y l * dphi b c l y)) by (intros l Hl; now rewrite (Q l Hl), (dphi_ext b _ _ _ y Q)).
        cbn. rewrite (rsum_0 (tdim b) (fun j => y j * 0)) by (intros; ring). ring.
    + exists [mkTerm (fun y => c (nv b) - phi b c y + rsum (tdim b) (fun l => y l * dphi b c l y)) (fun k y => rsum (tdim b) (fun l => y l * hphi b c l k y)) (fun t => 1) (fun _ => 0)]. split.
      { intros e [<-|[]]; cbn [tg td tp tq]; split; [|apply C1_const].
        refine (KD_ext b _ _ _ _ _ _ (KD_plus b _ _ _ _ (KD_plus b _ _ _ _ (KD_const b (c (nv b))) (KD_scal b (-1) _ _ (proj1 (IH c))))
          (KD_rsum b (tdim b) _ _ (fun l Hl => KD_mult b _ _ _ _ (KD_coord b l Hl) (proj2 (IH c) l Hl))))).
        - intro x. ring_simplify. cbn. ring.
        - intros k x Hk. cbn beta. rewrite rsum_plus.
          rewrite (rsum_ext (tdim b) (fun i => (if Nat.eqb k i then 1 else 0) * dphi b c i x) (fun i => if Nat.eqb i k then dphi b c i x else 0))
            by (intros i Hi; rewrite (Nat.eqb_sym k i); destruct (Nat.eqb i k); ring).
          rewrite rsum_delta by assumption. ring. }
      intros t y Ht. cbn [dphi hphi lsum fold_right tg td tp tq]. pose proof (pyr_baseK b t y Ht) as Q. rewrite !pyr_n, !(phi_ext b _ _ y Q), Nat.ltb_irrefl.
      assert (HD : forall k, rsum (tdim b) (fun l => base b (pyr b t y) l * hphi b c l k (base b (pyr b t y))) = rsum (tdim b) (fun l => y l * hphi b c l k y))
        by (intro k; apply rsum_ext; intros l Hl; now rewrite (Q l Hl), (hphi_ext b _ _ _ _ y Q)).
      split; [|split].
      * rewrite (rsum_ext (tdim b) _ (fun l => y l * dphi b c l y)) by (intros l Hl; now rewrite (Q l Hl), (dphi_ext b _ _ _ y Q)). cbn; ring.
      * intros k Hk. rewrite (L1 k Hk), HD. cbn [lsum fold_right map]. destruct Ht as [->|Ht]; [cbn in Hk; lia|]. cbn. field. lra.
      * rewrite (rsum_ext (tdim b) _ (fun m => y m * rsum (tdim b) (fun l => y l * hphi b c l m y))) by (intros m Hm; now rewrite (Q m Hm), HD).
        cbn. destruct Ht as [->|Ht]; [cbn; unfold Rdiv; ring|]. field. lra.
    + assert (Hj' : (j < tdim b)%nat) by lia.
      exists [mkTerm (dphi b c j) (hphi b c j) (fun t => 1) (fun _ => 0)]. split.
      { intros e [<-|[]]; cbn [tg td tp tq]; (split; [now apply IH|apply C1_const]). }
      intros t y Ht. cbn [dphi hphi lsum fold_right tg td tp tq]. pose proof (pyr_baseK b t y Ht) as Q. rewrite !pyr_n, (L1 j Hj'), !(dphi_ext b _ _ _ y Q), Nat.ltb_irrefl.
      destruct Ht as [->|Ht]; [cbn in Hj'; lia|].
      split; [cbn; ring|]. split.
      * intros k Hk. rewrite (L1 k Hk), !(hphi_ext b _ _ _ _ y Q). cbn; field. lra.
      * rewrite (rsum_ext (tdim b) _ (fun l => y l * hphi b c j l y)) by (intros l Hl; now rewrite (Q l Hl), (hphi_ext b _ _ _ _ y Q)). cbn. field. lra.
Qed.
Definition KD_phi T c := proj1 (KD_phi_dphi T c).
Definition KD_dphi T c := proj2 (KD_phi_dphi T c).

(** *** The code's sums *)
Lemma phi_shape T : forall c x, rsum (nv T) (fun i => shape T x i * c i) = phi T c x.
Proof.
  induction T as [|b IH|b IH]; intros c x; [cbn; ring| |].
  - rewrite sum_Pri, !IH. reflexivity.
  - rewrite sum_Pyr, !IH. reflexivity.
Qed.
Lemma shapeC_phi tol T x c : 0 <= tol -> smoothC tol T x -> rsum (nv T) (fun i => shapeC tol T x i * c i) = phi T c x.
Proof.
  intro Ht. revert x c. induction T as [|b IH|b IH]; intros x c H; [cbn; ring| |]; cbn [smoothC] in H.
  - rewrite (wsum_Pri tol b x (fun i _ => c i) 0), !IH by assumption. reflexivity.
  - rewrite (wsum_Pyr tol b x (fun i _ => c i) 0). rewrite (proj2 (away_true tol _ Ht) (proj1 H)). rewrite IH by apply H. reflexivity.
Qed.
Lemma dshapeC_dphi tol T x c : 0 <= tol -> smoothC tol T x -> forall j, (j < tdim T)%nat -> rsum (nv T) (fun i => dshapeC tol T x j i * c i) = dphi T c j x.
Proof.
  intro Ht. revert x c. induction T as [|b IH|b IH]; intros x c H j Hj; [cbn in Hj; lia| |]; cbn [smoothC tdim] in *; cbn [dphi]; destruct (Nat.eq_dec j (tdim b)) as [->|N].
  - rewrite (dsum_Pri_last tol b x (fun i _ => c i) 0), Nat.ltb_irrefl, !(shapeC_phi tol) by assumption. fold (top b c). ring_simplify. unfold top. ring.
  - rewrite (dsum_Pri tol b x j (fun i _ => c i) 0) by lia. rewrite (proj2 (Nat.ltb_lt j (tdim b))) by lia. rewrite !IH by (auto; lia). reflexivity.
  - rewrite (dsum_Pyr_last tol b x (fun i _ => c i) 0), Nat.ltb_irrefl.
    assert (E : proj tol (x (tdim b)) x = base b x) by (apply functional_extensionality; intro k; unfold proj, base; now rewrite (proj2 (away_true tol _ Ht) (proj1 H))).
    rewrite E, (shapeC_phi tol) by (auto; apply H). rewrite (rsum_ext (tdim b) _ (fun l => base b x l * dphi b c l (base b x))) by (intros l Hl; rewrite IH by (auto; apply H); reflexivity). ring.
  - rewrite (dsum_Pyr tol b x j (fun i _ => c i) 0) by lia. rewrite (proj2 (Nat.ltb_lt j (tdim b))) by lia.
    assert (E : proj tol (x (tdim b)) x = base b x) by (apply functional_extensionality; intro k; unfold proj, base; now rewrite (proj2 (away_true tol _ Ht) (proj1 H))).
    rewrite E. apply IH; [apply H|lia].
Qed.
Lemma phi_lt id : forall d c x, phi (lt id d) c x = phi (topo_of id d) c x.
Proof.
  induction d as [|d IH]; intros c x; [reflexivity|]. rewrite lt_S, topo_S. destruct (N.testbit id (N.of_nat d)); cbn [orb].
  - cbn [phi]. unfold top. rewrite !IH, nv_lt. unfold lt. now rewrite !tdim_topo.
  - destruct d; cbn [Nat.eqb].
    + cbn. reflexivity.
    + cbn [phi]. rewrite !IH, nv_lt. unfold lt, base. now rewrite !tdim_topo.
Qed.
Lemma dphi_lt id : forall d c j x, dphi (lt id d) c j x = dphi (topo_of id d) c j x.
Proof.
  induction d as [|d IH]; intros c j x; [reflexivity|]. rewrite lt_S, topo_S. destruct (N.testbit id (N.of_nat d)); cbn [orb].
  - cbn [dphi]. unfold top. rewrite !IH, !phi_lt, nv_lt. unfold lt. now rewrite !tdim_topo.
  - destruct d; cbn [Nat.eqb].
    + cbn. unfold top. cbn. ring.
    + cbn [dphi]. rewrite !IH, !phi_lt, nv_lt. unfold lt, base. rewrite !tdim_topo. destruct (Nat.ltb j (S d)); [reflexivity|]. f_equal. apply rsum_ext. intros. f_equal. apply IH.
Qed.

(** *** Polynomials of functions of the class *)
Lemma KD_pow T G D m : KD T G D -> KD T (fun x => G x ^ m) (fun k x => INR m * D k x * G x ^ (m - 1)).
Proof.
  intro H. induction m as [|m IH].
  - refine (KD_ext T _ _ _ _ _ _ (KD_const T 1)); [reflexivity|]. intros k x Hk. cbn. ring.
  - refine (KD_ext T _ _ _ _ _ _ (KD_mult T _ _ _ _ H IH)); [reflexivity|]. intros k x Hk. cbn beta. rewrite S_INR. replace (S m - 1)%nat with m by lia.
    destruct m as [|m]; [cbn; ring|]. replace (S m - 1)%nat with m by lia. cbn [pow]. ring.
Qed.
Lemma KD_monomial T n e (G : nat -> Vec -> R) (D : nat -> nat -> Vec -> R) : (forall l, (l < n)%nat -> KD T (G l) (D l)) ->
  KD T (fun x => monomial n e (fun l => G l x)) (fun k x => rsum n (fun l => D l k x * (INR (e l) * monomial n (pd e l) (fun l => G l x)))).
Proof.
  induction n as [|n IH]; intro H; cbn [monomial].
  - apply KD_const.
  - refine (KD_ext T _ _ _ _ _ _ (KD_mult T _ _ _ _ (IH ltac:(intros; apply H; lia)) (KD_pow T _ _ (e n) (H n ltac:(lia))))); [reflexivity|].
    intros k x Hk. cbv beta. rewrite rsum_S. rewrite pd_eq, (monomial_exp n (pd e n) e) by (intros; apply pd_ne; lia).
    rewrite (rsum_ext n (fun l => D l k x * (INR (e l) * (monomial n (pd e l) (fun l0 => G l0 x) * G n x ^ pd e l n)))
      (fun l => D l k x * (INR (e l) * monomial n (pd e l) (fun l0 => G l0 x)) * G n x ^ e n)) by (intros l Hl; rewrite pd_ne by lia; ring).
    rewrite rsum_scal_r. replace (e n - 1)%nat with (Nat.pred (e n)) by lia. ring.
Qed.
Lemma KD_peval T n P (G : nat -> Vec -> R) (D : nat -> nat -> Vec -> R) : (forall l, (l < n)%nat -> KD T (G l) (D l)) ->
  KD T (fun x => peval n P (fun l => G l x)) (fun k x => rsum n (fun l => D l k x * peval n (pder l P) (fun l => G l x))).
Proof.
  intro H. induction P as [|[c e] P IH].
  - refine (KD_ext T _ _ _ _ _ _ (KD_const T 0)); [reflexivity|]. intros k x Hk. cbn. rewrite rsum_0; [reflexivity|]. intros; ring.
  - refine (KD_ext T _ _ _ _ _ _ (KD_plus T _ _ _ _ (KD_scal T c _ _ (KD_monomial T n e G D H)) IH)); [reflexivity|].
    intros k x Hk. cbv beta. rewrite <- rsum_scal, <- rsum_plus. apply rsum_ext. intros l Hl. cbn [peval pder map fst snd]. unfold pder. ring.
Qed.
