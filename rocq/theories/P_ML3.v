(** MultiLinearGeometry: class level facts about global and jacobianTransposed. *)
From Coq Require Import PeanoNat NArith Lia Bool List Reals Lra FunctionalExtensionality.
From Coquelicot Require Import Coquelicot.
From Verif Require Import M_Type M_RefTopo M_RefGeo M_Matrix M_MultiLinear S_Topo S_RefGeo S_MultiLinear P_Type P_RefTopo P_RefTopo3 P_RSum P_RefGeo P_RefGeo2 P_RefGeo3 P_RefGeo4 P_Matrix2 P_ML1 P_ML2 T_RefGeo.
Import ListNotations.
Local Open Scope R_scope.

Lemma ml_wf_nv mydim g : ml_wf mydim g -> length (ml_corners g) = nv (topo_of (ml_id g) mydim).
Proof.
  intros (H1 & H2 & H3). rewrite H3, nv_size. symmetry. apply C16_corner_count.
Qed.

Section G.
Variables (mydim cdim : nat) (tol : R).
Hypothesis Ht : 0 <= tol.
Variable g : MLGeo.
Notation T := (topo_of (ml_id g) mydim).
Notation L := (lt (ml_id g) mydim).
Hypothesis wf : ml_wf mydim g.

Lemma global_spec jv x : mlg_global mydim cdim tol jv g x =
  Some (vset cdim (fun k => comb (shapeC tol L x) (nv T) (ml_corners g) k) jv).
Proof.
  unfold mlg_global. rewrite glob_spec; [|lia|fold L; rewrite nv_lt, (ml_wf_nv mydim) by assumption; lia].
  cbn [option_map snd]. f_equal. fold L. rewrite nv_lt. f_equal. apply functional_extensionality. intro k.
  replace (fun k => 1 * x k) with x by (apply functional_extensionality; intro; ring). ring.
Qed.
Lemma global_regular jv x : regular tol T x ->
  exists y, mlg_global mydim cdim tol jv g x = Some y /\
    forall k, (k < cdim)%nat -> y k = rsum (nv T) (fun i => shape T x i * nth i (ml_corners g) vzero k).
Proof.
  intro H. eexists. split; [apply global_spec|]. intros k Hk. unfold vset. rewrite (proj2 (Nat.ltb_lt k cdim)) by assumption.
  unfold comb. apply rsum_ext. intros i Hi. f_equal. rewrite <- shape_lt. apply shapeC_shape; [assumption|now apply regular_lt|now rewrite nv_lt].
Qed.
Lemma jt_value jm jk x : mlg_jacobianTransposed mydim cdim tol jm jk g x =
  Some (fun j k => if andb (Nat.ltb j mydim) (Nat.ltb k cdim) then comb (dshapeC tol L x j) (nv T) (ml_corners g) k else jm j k).
Proof.
  unfold mlg_jacobianTransposed. rewrite jt_spec; [|lia|fold L; rewrite nv_lt, (ml_wf_nv mydim) by assumption; lia].
  cbn [option_map snd]. f_equal. fold L. rewrite nv_lt. apply functional_extensionality. intro j. apply functional_extensionality. intro k. unfold jtval.
  replace (fun k => 1 * x k) with x by (apply functional_extensionality; intro; ring).
  destruct (Nat.ltb j mydim && Nat.ltb k cdim)%bool; [ring|reflexivity].
Qed.
Lemma inside_T x : inside_ref mydim g x <-> insideT T x 1.
Proof. unfold inside_ref. rewrite corners_verts. rewrite <- (in_hull_insideT T). now rewrite tdim_topo. Qed.
End G.

(** reading the lowest bit does not change the inside test *)
Lemma insideT_lt id : forall dim x a, insideT (topo_of id dim) x a <-> insideT (lt id dim) x a.
Proof.
  induction dim; intros x a; [reflexivity|]. rewrite lt_S, topo_S. destruct (N.testbit id (N.of_nat dim)); cbn [orb insideT].
  - rewrite IHdim, tdim_lt, tdim_topo. reflexivity.
  - destruct dim; [reflexivity|]. cbn [Nat.eqb insideT]. rewrite IHdim, tdim_lt, tdim_topo. reflexivity.
Qed.

(** points where the linear functions are reproduced together with their derivatives *)
Fixpoint good (tol : R) (T : Topo) (x : Vec) : Prop :=
  match T with
  | Pt => True
  | Pri b => good tol b x
  | Pyr b => (x (tdim b) = 1 /\ forall k, (k < tdim b)%nat -> x k = 0) \/
             (tol < Rabs (1 - x (tdim b)) /\ good tol b (fun k => x k / (1 - x (tdim b))))
  end.
Lemma good_ext tol T : forall x y, (forall k, (k < tdim T)%nat -> x k = y k) -> good tol T x -> good tol T y.
Proof.
  induction T as [|b IH|b IH]; intros x y E; cbn [good tdim] in *; [auto| |].
  - apply IH. intros; apply E; lia.
  - intros [[H1 H2]|[H1 H2]]; [left|right]; rewrite <- (E (tdim b)) by lia.
    + split; [assumption|]. intros k Hk. rewrite <- E by lia. auto.
    + split; [assumption|]. revert H2. apply IH. intros k Hk. now rewrite E by lia.
Qed.
Lemma good_regular tol T : forall x, good tol T x -> regularC tol T x.
Proof. induction T; intros x H; cbn [good regularC] in *; auto. destruct H as [[H1 H2]|[H1 H2]]; auto. Qed.
Lemma smooth_good tol T : forall x, smoothC tol T x -> good tol T x.
Proof. induction T; intros x H; cbn [good smoothC] in *; auto. destruct H; auto. Qed.
Lemma regular_inside_good tol T : 0 <= tol -> forall x, regularC tol T x -> insideT T x 1 -> good tol T x.
Proof.
  intro Ht. induction T as [|b IH|b IH]; intros x H I; cbn [good regularC] in *; auto.
  - apply IH; [assumption|]. apply I.
  - destruct H as [H|[H1 H2]].
    + left. split; [assumption|]. destruct I as [_ I]. rewrite H, Rminus_diag_eq in I by reflexivity. now apply insideT_zero.
    + right. split; [assumption|]. apply IH; [assumption|]. apply insideT_base; [assumption|].
      intro E. rewrite E, Rminus_diag_eq, Rabs_R0 in H1 by reflexivity. lra.
Qed.
Lemma good_zero tol T : 0 <= tol < 1 -> good tol T vzero.
Proof.
  intro Ht. induction T as [|b IH|b IH]; cbn [good]; auto. right. split.
  - unfold vzero. rewrite Rminus_0_r, Rabs_R1. lra.
  - apply (good_ext tol b vzero); [|assumption]. intros. unfold vzero. field.
Qed.
Lemma smooth_zero tol T : 0 <= tol < 1 -> smoothC tol T vzero.
Proof.
  intro Ht. assert (X : forall T x y, (forall k, (k < tdim T)%nat -> x k = y k) -> smoothC tol T x -> smoothC tol T y).
  { induction T0 as [|b IH|b IH]; intros x y E; cbn [smoothC tdim] in *; [auto| |].
    - apply IH. intros; apply E; lia.
    - intros [H1 H2]; rewrite <- (E (tdim b)) by lia. split; [assumption|]. revert H2. apply IH. intros k Hk. now rewrite E by lia. }
  induction T as [|b IH|b IH]; cbn [smoothC]; auto. split.
  - unfold vzero. rewrite Rminus_0_r, Rabs_R1. lra.
  - apply (X b vzero); [|assumption]. intros. unfold vzero. field.
Qed.
Lemma good_0_smooth_or tol T x : 0 <= tol -> good tol T x -> forall k, (k < tdim T)%nat ->
  rsum (nv T) (fun i => shape T x i * rc T i k) = x k.
Proof.
  intro Ht. revert x. induction T as [|b IH|b IH]; intros x H k Hk; cbn [tdim good] in *; [lia| |].
  - rewrite sum_Pri. rewrite (rsum_ext (nv b) _ (fun i => shape b x i * rc b i k)).
    2:{ intros i Hi. cbn [rc]. now rewrite (proj2 (Nat.ltb_lt i (nv b))) by assumption. }
    destruct (Nat.eq_dec k (tdim b)).
    + subst k. rewrite (rsum_ext (nv b) (fun i => _ * rc (Pri b) _ _) (fun i => shape b x i * 1)).
      2:{ intros i Hi. cbn [rc]. rewrite (proj2 (Nat.ltb_ge (nv b + i) (nv b))), upd_eq by lia. reflexivity. }
      rewrite shape_sum, rsum_0; [ring|]. intros i Hi. rewrite rc_support by lia. ring.
    + rewrite (rsum_ext (nv b) (fun i => _ * rc (Pri b) _ _) (fun i => shape b x i * rc b i k)).
      2:{ intros i Hi. cbn [rc]. rewrite (proj2 (Nat.ltb_ge (nv b + i) (nv b))), upd_ne by lia. do 2 f_equal. lia. }
      rewrite IH by (auto; lia). ring.
  - rewrite sum_Pyr. rewrite (rsum_ext (nv b) _ (fun i => shape b (fun k => x k / (1 - x (tdim b))) i * rc b i k)).
    2:{ intros i Hi. cbn [rc]. now rewrite (proj2 (Nat.ltb_lt i (nv b))) by assumption. }
    cbn [rc]. rewrite Nat.ltb_irrefl. destruct (Nat.eq_dec k (tdim b)).
    + subst k. rewrite upd_eq, rsum_0; [ring|]. intros i Hi. rewrite rc_support by lia. ring.
    + rewrite upd_ne by lia. unfold vzero. destruct H as [[H1 H2]|[H1 H2]].
      * rewrite H1, H2 by lia. ring.
      * rewrite IH by (auto; lia). field. intro E. rewrite E, Rabs_R0 in H1. lra.
Qed.

Lemma shape_simplex_good tol T : 0 <= tol -> simT T -> forall x, good tol T x -> forall i, (i < nv T)%nat ->
  shape T x i = match i with O => 1 - rsum (tdim T) x | S k => x k end.
Proof.
  intro Ht. assert (NV : forall T, simT T -> nv T = S (tdim T)) by (intros; rewrite <- nv_verts; now apply simT_verts_length).
  induction T as [|b IH|b IH]; intros H x Hs i Hi.
  - cbn in *. destruct i; [ring|lia].
  - cbn [simT] in H. subst b. cbn in *. destruct i as [|[|]]; cbn; try ring. lia.
  - cbn [simT] in H. cbn [shape nv tdim good] in *. rewrite (NV b H) in *.
    destruct Hs as [[E Z]|[N S']].
    + destruct (Nat.ltb_spec i (S (tdim b))).
      * rewrite E, Rminus_diag_eq, Rmult_0_l by reflexivity. destruct i as [|k]; [|symmetry; apply Z; lia].
        cbn [rsum]. rewrite E, rsum_0 by auto. ring.
      * replace i with (S (tdim b)) by lia. reflexivity.
    + assert (NZ : 1 - x (tdim b) <> 0) by (intro E; rewrite E, Rabs_R0 in N; lra).
      destruct (Nat.ltb_spec i (S (tdim b))).
      * rewrite IH by auto. destruct i as [|k].
        -- cbn [rsum]. unfold Rdiv. rewrite rsum_scal_r. field. assumption.
        -- field. assumption.
      * replace i with (S (tdim b)) by lia. reflexivity.
Qed.

(** derivatives of the constant and of the coordinate functions *)
Lemma dsum_const tol T : 0 <= tol < 1 -> forall x j, good tol T x -> (j < tdim T)%nat ->
  rsum (nv T) (fun i => dshapeC tol T x j i * 1) = 0.
Proof.
  intro Ht. assert (SC : forall T x, good tol T x -> rsum (nv T) (fun i => shapeC tol T x i * 1) = 1).
  { intros T0 x H. rewrite (rsum_ext (nv T0) _ (fun i => shape T0 x i * 1)); [apply shape_sum|].
    intros i Hi. rewrite shapeC_shape; [reflexivity|lra|now apply good_regular|assumption]. }
  induction T as [|b IH|b IH]; intros x j H Hj; cbn [tdim] in *; [lia| |].
  - cbn [good] in H. destruct (Nat.eq_dec j (tdim b)) as [->|N].
    + assert (Q := dsum_Pri_last tol b x (fun _ _ => 1) 0). cbv beta in Q. rewrite Q, SC by assumption. ring.
    + assert (Q := dsum_Pri tol b x j (fun _ _ => 1) 0). cbv beta in Q. rewrite Q, IH by (auto; lia). ring.
  - assert (GP : good tol b (proj tol (x (tdim b)) x)).
    { destruct H as [[H1 H2]|[H1 H2]].
      - apply (good_ext tol b vzero); [|now apply good_zero]. intros k Hk. unfold proj, vzero. rewrite H1, Rminus_diag_eq, away_0 by (auto; lra). reflexivity.
      - apply (good_ext tol b (fun k => x k / (1 - x (tdim b)))); [|assumption]. intros k Hk. unfold proj. now rewrite (proj2 (away_true tol _ (proj1 Ht)) H1). }
    destruct (Nat.eq_dec j (tdim b)) as [->|N].
    + assert (Q := dsum_Pyr_last tol b x (fun _ _ => 1) 0). cbv beta in Q. rewrite Q, SC by assumption.
      rewrite rsum_0; [ring|]. intros l Hl. rewrite IH by auto. ring.
    + assert (Q := dsum_Pyr tol b x j (fun _ _ => 1) 0). cbv beta in Q. rewrite Q, IH by (auto; lia). ring.
Qed.
Lemma dsum_coord tol T : 0 <= tol < 1 -> forall x j l, good tol T x -> (j < tdim T)%nat -> (l < tdim T)%nat ->
  rsum (nv T) (fun i => dshapeC tol T x j i * rc T i l) = if Nat.eqb j l then 1 else 0.
Proof.
  intro Ht. assert (SC : forall T x, good tol T x -> rsum (nv T) (fun i => shapeC tol T x i * 1) = 1).
  { intros T0 x H. rewrite (rsum_ext (nv T0) _ (fun i => shape T0 x i * 1)); [apply shape_sum|].
    intros i Hi. rewrite shapeC_shape; [reflexivity|lra|now apply good_regular|assumption]. }
  assert (LP : forall T x, good tol T x -> forall k, (k < tdim T)%nat -> rsum (nv T) (fun i => shapeC tol T x i * rc T i k) = x k).
  { intros T0 x H k Hk. rewrite (rsum_ext (nv T0) _ (fun i => shape T0 x i * rc T0 i k)); [apply (good_0_smooth_or tol); auto; lra|].
    intros i Hi. rewrite shapeC_shape; [reflexivity|lra|now apply good_regular|assumption]. }
  induction T as [|b IH|b IH]; intros x j l H Hj Hl; cbn [tdim] in *; [lia| |].
  - cbn [good] in H.
    assert (RB : forall i, (i < nv b)%nat -> rc (Pri b) i l = rc b i l).
    { intros i Hi. cbn [rc]. now rewrite (proj2 (Nat.ltb_lt i (nv b))) by assumption. }
    assert (RT : forall i, (i < nv b)%nat -> rc (Pri b) (nv b + i) l = if Nat.eqb l (tdim b) then 1 else rc b i l).
    { intros i Hi. cbn [rc]. rewrite (proj2 (Nat.ltb_ge (nv b + i) (nv b))) by lia. replace (nv b + i - nv b)%nat with i by lia. reflexivity. }
    destruct (Nat.eq_dec j (tdim b)) as [->|N].
    + rewrite (dsum_Pri_last tol b x (rc (Pri b)) l).
      rewrite (rsum_ext (nv b) _ _ (fun i Hi => f_equal (Rmult (shapeC tol b x i)) (RB i Hi))).
      rewrite (rsum_ext (nv b) (fun i => _ * rc (Pri b) _ _) _ (fun i Hi => f_equal (Rmult (shapeC tol b x i)) (RT i Hi))).
      rewrite (Nat.eqb_sym (tdim b) l). destruct (Nat.eqb_spec l (tdim b)).
      * subst l. rewrite SC, rsum_0; auto; [ring|]. intros i Hi. rewrite rc_support by lia. ring.
      * ring.
    + rewrite (dsum_Pri tol b x j (rc (Pri b)) l) by lia.
      rewrite (rsum_ext (nv b) _ _ (fun i Hi => f_equal (Rmult (dshapeC tol b x j i)) (RB i Hi))).
      rewrite (rsum_ext (nv b) (fun i => _ * rc (Pri b) _ _) _ (fun i Hi => f_equal (Rmult (dshapeC tol b x j i)) (RT i Hi))).
      destruct (Nat.eqb_spec l (tdim b)).
      * subst l. rewrite (proj2 (Nat.eqb_neq j (tdim b))) by assumption. rewrite dsum_const by (auto; lia).
        rewrite rsum_0; [ring|]. intros i Hi. rewrite rc_support by lia. ring.
      * rewrite IH by (auto; lia). ring.
  - assert (GP : good tol b (proj tol (x (tdim b)) x)).
    { destruct H as [[H1 H2]|[H1 H2]].
      - apply (good_ext tol b vzero); [|now apply good_zero]. intros k Hk. unfold proj, vzero. rewrite H1, Rminus_diag_eq, away_0 by (auto; lra). reflexivity.
      - apply (good_ext tol b (fun k => x k / (1 - x (tdim b)))); [|assumption]. intros k Hk. unfold proj. now rewrite (proj2 (away_true tol _ (proj1 Ht)) H1). }
    clear H. set (X := proj tol (x (tdim b)) x) in *.
    assert (RB : forall i, (i < nv b)%nat -> rc (Pyr b) i l = rc b i l).
    { intros i Hi. cbn [rc]. now rewrite (proj2 (Nat.ltb_lt i (nv b))) by assumption. }
    destruct (Nat.eq_dec j (tdim b)) as [->|N].
    + rewrite (dsum_Pyr_last tol b x (rc (Pyr b)) l). fold X.
      rewrite (rsum_ext (nv b) _ _ (fun i Hi => f_equal (Rmult (shapeC tol b X i)) (RB i Hi))).
      rewrite (rsum_ext (tdim b) _ (fun m => X m * rsum (nv b) (fun i => dshapeC tol b X m i * rc b i l)))
        by (intros m Hm; f_equal; apply rsum_ext; intros i Hi; now rewrite RB).
      cbn [rc]. rewrite Nat.ltb_irrefl. rewrite (Nat.eqb_sym (tdim b) l). destruct (Nat.eqb_spec l (tdim b)).
      * subst l. rewrite upd_eq, rsum_0.
        -- rewrite rsum_0; [ring|]. intros m Hm. rewrite rsum_0; [ring|]. intros i Hi. rewrite rc_support by lia. ring.
        -- intros i Hi. rewrite rc_support by lia. ring.
      * rewrite upd_ne by lia. unfold vzero. rewrite LP by (auto; lia).
        rewrite (rsum_ext (tdim b) _ (fun m => if Nat.eqb m l then X m else 0)).
        -- rewrite rsum_delta by lia. ring.
        -- intros m Hm. rewrite IH by (auto; lia). destruct (Nat.eqb m l); ring.
    + rewrite (dsum_Pyr tol b x j (rc (Pyr b)) l) by lia. fold X.
      rewrite (rsum_ext (nv b) _ _ (fun i Hi => f_equal (Rmult (dshapeC tol b X j i)) (RB i Hi))).
      destruct (Nat.eq_dec l (tdim b)).
      * subst l. rewrite (proj2 (Nat.eqb_neq j (tdim b))) by assumption. rewrite rsum_0; [reflexivity|]. intros i Hi. rewrite rc_support by lia. ring.
      * apply IH; auto; lia.
Qed.

(** ** limits at the apex *)
Definition lim0 (f : R -> R) (l : R) : Prop := filterlim f (at_right 0) (locally l).
Lemma lim0_const c : lim0 (fun _ => c) c.
Proof. apply filterlim_const. Qed.
Lemma lim0_id : lim0 (fun s => s) 0.
Proof. intros P HP. unfold filtermap, at_right, within. revert HP. apply filter_imp. auto. Qed.
Lemma lim0_plus f g a b : lim0 f a -> lim0 g b -> lim0 (fun s => f s + g s) (a + b).
Proof. intros F G. eapply filterlim_comp_2; [exact F|exact G|]. apply (filterlim_plus (V := R_NormedModule) a b). Qed.
Lemma lim0_mult f g a b : lim0 f a -> lim0 g b -> lim0 (fun s => f s * g s) (a * b).
Proof. intros F G. eapply filterlim_comp_2; [exact F|exact G|]. apply (filterlim_mult (K := R_AbsRing) a b). Qed.
Lemma lim0_opp f a : lim0 f a -> lim0 (fun s => - f s) (- a).
Proof. intros F. eapply filterlim_comp; [exact F|]. apply (filterlim_opp (V := R_NormedModule) a). Qed.
Lemma lim0_rsum n (f : nat -> R -> R) (a : nat -> R) : (forall i, (i < n)%nat -> lim0 (f i) (a i)) ->
  lim0 (fun s => rsum n (fun i => f i s)) (rsum n a).
Proof.
  induction n; intro H; cbn [rsum]; [apply lim0_const|]. apply lim0_plus; [apply IHn; intros; apply H; lia|apply H; lia].
Qed.
Lemma lim0_ext f g l : (forall s, 0 < s <= 1 -> f s = g s) -> lim0 f l -> lim0 g l.
Proof.
  intro E. apply filterlim_ext_loc. unfold at_right, within. exists (mkposreal 1 Rlt_0_1). intros s Hs H.
  apply E. unfold ball in Hs; simpl in Hs; unfold AbsRing_ball, abs, minus, plus, opp in Hs; simpl in Hs.
  apply Rabs_def2 in Hs. lra.
Qed.
Lemma proj0_smooth x xn k : xn <> 1 -> proj 0 xn x k = x k / (1 - xn).
Proof.
  intro H. unfold proj. destruct (away 0 (1 - xn)) eqn:E; [reflexivity|]. exfalso.
  assert (A : away 0 (1 - xn) = true) by (apply away_true; [lra|]; apply Rabs_pos_lt; lra). congruence.
Qed.
Lemma away0 c : c <> 0 -> away 0 c = true.
Proof. intro H. apply away_true; [lra|]. now apply Rabs_pos_lt. Qed.

Lemma smoothC_ext tol T : forall x y, (forall k, (k < tdim T)%nat -> x k = y k) -> smoothC tol T x -> smoothC tol T y.
Proof.
  induction T as [|b IH|b IH]; intros x y E; cbn [smoothC tdim] in *; [auto| |].
  - apply IH. intros; apply E; lia.
  - intros [H1 H2]; rewrite <- (E (tdim b)) by lia. split; [assumption|]. revert H2. apply IH. intros k Hk. now rewrite E by lia.
Qed.
Lemma insideT_0 T : forall a, 0 <= a -> insideT T vzero a.
Proof.
  induction T as [|b IH|b IH]; intros a Ha; cbn [insideT]; [exact I| |]; unfold vzero at 1 2; (split; [lra|apply IH]); auto.
  unfold vzero. lra.
Qed.

Lemma approach T : forall x, insideT T x 1 ->
  exists y : R -> Vec,
    (forall s, 0 < s <= 1 -> smoothC 0 T (y s) /\ insideT T (y s) 1 /\ forall k, (k < tdim T)%nat -> Rabs (y s k - x k) <= s) /\
    (forall i, (i < nv T)%nat -> lim0 (fun s => shapeC 0 T (y s) i) (shapeC 0 T x i)) /\
    (forall j i, (j < tdim T)%nat -> (i < nv T)%nat -> lim0 (fun s => dshapeC 0 T (y s) j i) (dshapeC 0 T x j i)).
Proof.
  induction T as [|b IH|b IH]; intros x H.
  - exists (fun _ => x). split; [|split].
    + intros s Hs. split; [exact I|]. split; [exact I|]. cbn [tdim]. intros; lia.
    + intros i Hi. apply lim0_const.
    + cbn [tdim]. intros; lia.
  - destruct H as [H1 H2]. destruct (IH x H2) as (yb & A & B & C).
    exists (fun s => upd (yb s) (tdim b) (x (tdim b))).
    assert (E : forall s k, (k < tdim b)%nat -> yb s k = upd (yb s) (tdim b) (x (tdim b)) k) by (intros s k Hk; rewrite upd_ne by lia; reflexivity).
    assert (ES : forall s i, shapeC 0 b (upd (yb s) (tdim b) (x (tdim b))) i = shapeC 0 b (yb s) i) by (intros; apply shapeC_ext; intros; symmetry; auto).
    assert (ED : forall s j i, dshapeC 0 b (upd (yb s) (tdim b) (x (tdim b))) j i = dshapeC 0 b (yb s) j i) by (intros; apply dshapeC_ext; intros; symmetry; auto).
    split; [|split].
    + intros s Hs. destruct (A s Hs) as (A1 & A2 & A3). split; [|split].
      * cbn [smoothC]. apply (smoothC_ext 0 b (yb s)); auto.
      * cbn [insideT]. rewrite upd_eq. split; [assumption|]. apply (insideT_ext b (yb s)); auto.
      * cbn [tdim]. intros k Hk. destruct (Nat.eq_dec k (tdim b)).
        -- subst. rewrite upd_eq, Rminus_diag_eq, Rabs_R0 by reflexivity. lra.
        -- rewrite upd_ne by lia. apply A3. lia.
    + intros i Hi. cbn [shapeC nv] in *. destruct (Nat.ltb_spec i (nv b)).
      * apply (lim0_ext (fun s => (1 - x (tdim b)) * shapeC 0 b (yb s) i)); [intros; rewrite upd_eq, ES; reflexivity|].
        apply lim0_mult; [apply lim0_const|]. auto.
      * apply (lim0_ext (fun s => (x (tdim b)) * shapeC 0 b (yb s) (i - nv b))); [intros; rewrite upd_eq, ES; reflexivity|].
        apply lim0_mult; [apply lim0_const|]. apply B. lia.
    + intros j i Hj Hi. cbn [dshapeC nv tdim] in *. destruct (Nat.ltb_spec j (tdim b)), (Nat.ltb_spec i (nv b)).
      * apply (lim0_ext (fun s => (1 - x (tdim b)) * dshapeC 0 b (yb s) j i)); [intros; rewrite upd_eq, ED; reflexivity|].
        apply lim0_mult; [apply lim0_const|]. auto.
      * apply (lim0_ext (fun s => (x (tdim b)) * dshapeC 0 b (yb s) j (i - nv b))); [intros; rewrite upd_eq, ED; reflexivity|].
        apply lim0_mult; [apply lim0_const|]. apply C; lia.
      * apply (lim0_ext (fun s => - shapeC 0 b (yb s) i)); [intros; rewrite ES; reflexivity|]. apply lim0_opp. auto.
      * apply (lim0_ext (fun s => shapeC 0 b (yb s) (i - nv b))); [intros; rewrite ES; reflexivity|]. apply B. lia.
  - destruct (Req_dec (x (tdim b)) 1) as [E1|N1].
    + (* apex *)
      destruct H as [H1 H2]. rewrite E1, Rminus_diag_eq in H2 by reflexivity.
      assert (Z := insideT_zero b x H2).
      exists (fun s => upd vzero (tdim b) (1 - s)).
      assert (P1 : forall s, 0 < s -> forall k, (k < tdim b)%nat -> proj 0 (1 - s) (upd vzero (tdim b) (1 - s)) k = vzero k).
      { intros s Hs k Hk. rewrite proj0_smooth by lra. rewrite upd_ne by lia. unfold vzero. field. lra. }
      assert (P2 : forall k, (k < tdim b)%nat -> proj 0 (x (tdim b)) x k = vzero k).
      { intros k Hk. unfold proj. rewrite E1, Rminus_diag_eq, away_0 by (auto; lra). reflexivity. }
      split; [|split].
      * intros s Hs. split; [|split].
        -- cbn [smoothC]. rewrite upd_eq. split; [apply Rabs_pos_lt; lra|].
           apply (smoothC_ext 0 b vzero); [|apply smooth_zero; lra]. intros k Hk. rewrite upd_ne by lia. unfold vzero. field. lra.
        -- cbn [insideT]. rewrite upd_eq. split; [lra|].
           apply (insideT_ext b vzero); [|apply insideT_0; lra]. intros k Hk. now rewrite upd_ne by lia.
        -- cbn [tdim]. intros k Hk. destruct (Nat.eq_dec k (tdim b)).
           ++ subst. rewrite upd_eq, E1. replace (1 - s - 1) with (- s) by ring. rewrite Rabs_Ropp, Rabs_pos_eq; lra.
           ++ rewrite upd_ne, Z by lia. unfold vzero. rewrite Rminus_0_r, Rabs_R0. lra.
      * intros i Hi. cbn [shapeC nv] in *. destruct (Nat.ltb_spec i (nv b)).
        -- rewrite E1, Rminus_diag_eq, away_0 by (auto; lra).
           assert (Q : lim0 (fun s => s * shapeC 0 b vzero i) (0 * shapeC 0 b vzero i)) by (apply lim0_mult; [apply lim0_id|apply lim0_const]).
           rewrite Rmult_0_l in Q. revert Q. apply (lim0_ext (fun s => s * shapeC 0 b vzero i)).
           intros s Hs. rewrite upd_eq. rewrite away0 by lra. replace (1 - (1 - s)) with s by ring. f_equal. apply shapeC_ext.
           intros k Hk. rewrite upd_ne by lia. unfold vzero. field. lra.
        -- assert (Q : lim0 (fun s => 1 + - s) (1 + - 0)) by (apply lim0_plus; [apply lim0_const|apply lim0_opp, lim0_id]).
           rewrite E1. replace (1 + - 0) with 1 in Q by ring. revert Q. apply lim0_ext. intros; rewrite upd_eq; ring.
      * intros j i Hj Hi. apply (lim0_ext (fun _ => dshapeC 0 (Pyr b) x j i)); [|apply lim0_const].
        intros s Hs. cbn [dshapeC]. rewrite upd_eq. cbn zeta.
        set (X1 := proj 0 (1 - s) _). assert (Q1 := P1 s (proj1 Hs)). fold X1 in Q1. set (X2 := proj 0 (x (tdim b)) x) in *.
        assert (Q : forall k, (k < tdim b)%nat -> X2 k = X1 k) by (intros; rewrite Q1, P2 by assumption; reflexivity).
        rewrite (dshapeC_ext 0 b X2 X1 j i Q), (shapeC_ext 0 b X2 X1 i Q).
        rewrite (rsum_ext (tdim b) (fun l => X2 l * _) (fun l => X1 l * dshapeC 0 b X1 l i)); [reflexivity|].
        intros l Hl. rewrite (Q l Hl). f_equal. now apply dshapeC_ext.
    + (* projected *)
      assert (HB := insideT_base b x H N1). destruct H as [H1 H2].
      set (q := 1 - x (tdim b)) in *. assert (Pq : 0 < q) by (unfold q; lra).
      set (x' := fun k => x k / q) in *.
      destruct (IH x' HB) as (yb & A & B & C).
      exists (fun s => upd (fun k => q * yb s k) (tdim b) (x (tdim b))).
      assert (XN : forall s, upd (fun k => q * yb s k) (tdim b) (x (tdim b)) (tdim b) = x (tdim b)) by (intros; apply upd_eq).
      assert (E : forall s k, (k < tdim b)%nat -> upd (fun k => q * yb s k) (tdim b) (x (tdim b)) k / q = yb s k)
        by (intros s k Hk; rewrite upd_ne by lia; field; lra).
      assert (EP : forall s k, (k < tdim b)%nat -> proj 0 (x (tdim b)) (upd (fun k => q * yb s k) (tdim b) (x (tdim b))) k = yb s k)
        by (intros s k Hk; rewrite proj0_smooth by assumption; apply E; assumption).
      assert (EX : forall k, proj 0 (x (tdim b)) x k = x' k) by (intros k; rewrite proj0_smooth by assumption; reflexivity).
      split; [|split].
      * intros s Hs. destruct (A s Hs) as (A1 & A2 & A3). split; [|split].
        -- cbn [smoothC]. rewrite XN. fold q. split; [apply Rabs_pos_lt; lra|]. apply (smoothC_ext 0 b (yb s)); [|assumption]. intros; symmetry; now apply E.
        -- cbn [insideT]. rewrite XN. split; [assumption|]. fold q.
           apply (insideT_ext b (vscale q (yb s))); [intros k Hk; rewrite upd_ne by lia; reflexivity|].
           replace q with (q * 1) at 2 by ring. apply P_RefGeo2.insideT_scale; [lra|assumption].
        -- cbn [tdim]. intros k Hk. destruct (Nat.eq_dec k (tdim b)).
           ++ subst. rewrite upd_eq, Rminus_diag_eq, Rabs_R0 by reflexivity. lra.
           ++ rewrite upd_ne by lia. assert (A4 := A3 k ltac:(lia)).
              replace (q * yb s k - x k) with (q * (yb s k - x' k)) by (unfold x'; field; lra).
              rewrite Rabs_mult, (Rabs_pos_eq q) by lra. assert (q <= 1) by (unfold q; lra).
              assert (Q0 := Rabs_pos (yb s k - x' k)). nra.
      * intros i Hi. cbn [shapeC nv] in *. destruct (Nat.ltb_spec i (nv b)).
        -- fold q. rewrite away0 by lra. apply (lim0_ext (fun s => q * shapeC 0 b (yb s) i)).
           ++ intros s Hs. rewrite XN. fold q. rewrite away0 by lra. f_equal. apply shapeC_ext. intros; symmetry; now apply E.
           ++ apply lim0_mult; [apply lim0_const|]. auto.
        -- apply (lim0_ext (fun s => x (tdim b))); [intros; now rewrite XN|]. apply lim0_const.
      * intros j i Hj Hi. cbn [dshapeC nv tdim] in *. cbn zeta.
        assert (ED : forall s j i, dshapeC 0 b (proj 0 (x (tdim b)) (upd (fun k => q * yb s k) (tdim b) (x (tdim b)))) j i = dshapeC 0 b (yb s) j i) by (intros; apply dshapeC_ext; auto).
        assert (ES : forall s i, shapeC 0 b (proj 0 (x (tdim b)) (upd (fun k => q * yb s k) (tdim b) (x (tdim b)))) i = shapeC 0 b (yb s) i) by (intros; apply shapeC_ext; auto).
        assert (ED' : forall j i, dshapeC 0 b (proj 0 (x (tdim b)) x) j i = dshapeC 0 b x' j i) by (intros; apply dshapeC_ext; auto).
        assert (ES' : forall i, shapeC 0 b (proj 0 (x (tdim b)) x) i = shapeC 0 b x' i) by (intros; apply shapeC_ext; auto).
        rewrite ED', ES'. destruct (Nat.ltb_spec j (tdim b)), (Nat.ltb_spec i (nv b)).
        -- apply (lim0_ext (fun s => dshapeC 0 b (yb s) j i)); [intros; rewrite XN, ED; reflexivity|]. auto.
        -- apply lim0_const.
        -- apply (lim0_ext (fun s => - shapeC 0 b (yb s) i + rsum (tdim b) (fun l => yb s l * dshapeC 0 b (yb s) l i))).
           ++ intros s Hs. rewrite XN, ES. f_equal. apply rsum_ext. intros l Hl. now rewrite EP, ED.
           ++ apply lim0_plus; [apply lim0_opp; auto|].
              rewrite (rsum_ext (tdim b) _ (fun l => x' l * dshapeC 0 b x' l i)) by (intros l Hl; now rewrite EX, ED').
              apply (lim0_rsum (tdim b) (fun l s => yb s l * dshapeC 0 b (yb s) l i)). intros l Hl. apply lim0_mult; [|auto].
              (* yb s l tends to x' l *)
              apply filterlim_locally. intro eps. unfold at_right, within.
              exists (mkposreal (Rmin 1 eps) (Rmin_pos _ _ Rlt_0_1 (cond_pos eps))). intros s Hs Hp.
              unfold ball in *; simpl in *; unfold AbsRing_ball, abs, minus, plus, opp in *; simpl in *.
              replace (s + - 0) with s in Hs by ring. rewrite Rabs_pos_eq in Hs by lra.
              assert (M1 := Rmin_l 1 eps). assert (M2 := Rmin_r 1 eps).
              destruct (A s ltac:(lra)) as (_ & _ & A3). specialize (A3 l Hl). unfold Rminus in A3. lra.
        -- apply lim0_const.
Qed.

(** within tolerance of the apex plane the Jacobian is the one on the axis *)
Lemma apex_axis tol b x s : 0 <= tol -> Rabs (1 - x (tdim b)) <= tol -> tol < Rabs (1 - s) ->
  forall j i, dshapeC tol (Pyr b) x j i = dshapeC tol (Pyr b) (upd vzero (tdim b) s) j i.
Proof.
  intros Ht Hx Hs j i. cbn [dshapeC]. rewrite upd_eq. cbn zeta.
  assert (AX : away tol (1 - x (tdim b)) = false).
  { destruct (away tol (1 - x (tdim b))) eqn:E; [|reflexivity]. apply away_true in E; [lra|assumption]. }
  assert (AS : away tol (1 - s) = true) by now apply away_true.
  set (X1 := proj tol s _). set (X2 := proj tol (x (tdim b)) x).
  assert (Q : forall k, (k < tdim b)%nat -> X2 k = X1 k).
  { intros k Hk. unfold X1, X2, proj. rewrite AX, AS, upd_ne by lia. unfold vzero. field. intro Z. rewrite Z, Rabs_R0 in Hs. lra. }
  rewrite (dshapeC_ext tol b X2 X1 j i Q), (shapeC_ext tol b X2 X1 i Q).
  rewrite (rsum_ext (tdim b) (fun l => X2 l * _) (fun l => X1 l * dshapeC tol b X1 l i)); [reflexivity|].
  intros l Hl. rewrite (Q l Hl). f_equal. now apply dshapeC_ext.
Qed.

(** the tolerance changes the weights by at most tol *)
Lemma shapeC_error tol T : 0 <= tol -> forall x, insideT T x 1 ->
  rsum (nv T) (fun i => Rabs (shapeC tol T x i - shape T x i)) <= tol.
Proof.
  intro Ht. induction T as [|b IH|b IH]; intros x H.
  - cbn. rewrite Rminus_diag_eq, Rabs_R0 by reflexivity. lra.
  - destruct H as [H1 H2]. specialize (IH x H2). cbn [nv shapeC shape]. rewrite rsum_app.
    rewrite (rsum_ext (nv b) _ (fun i => (1 - x (tdim b)) * Rabs (shapeC tol b x i - shape b x i))).
    2:{ intros i Hi. rewrite (proj2 (Nat.ltb_lt i (nv b))) by assumption. rewrite <- Rmult_minus_distr_l, Rabs_mult, (Rabs_pos_eq (1 - _)) by lra. reflexivity. }
    rewrite (rsum_ext (nv b) (fun k => Rabs _) (fun i => x (tdim b) * Rabs (shapeC tol b x i - shape b x i))).
    2:{ intros i Hi. rewrite (proj2 (Nat.ltb_ge (nv b + i) (nv b))) by lia. replace (nv b + i - nv b)%nat with i by lia.
        rewrite <- Rmult_minus_distr_l, Rabs_mult, (Rabs_pos_eq (x (tdim b))) by lra. reflexivity. }
    rewrite !rsum_scal. lra.
  - cbn [nv shapeC shape]. rewrite rsum_app. cbn [rsum]. rewrite Nat.add_0_r, Nat.ltb_irrefl, (Rminus_diag_eq (x (tdim b)) (x (tdim b))), Rabs_R0, Rplus_0_l, Rplus_0_r by reflexivity.
    destruct (away tol (1 - x (tdim b))) eqn:E.
    + assert (N : x (tdim b) <> 1) by (apply away_nz in E; auto; lra).
      assert (HB := insideT_base b x H N). destruct H as [H1 H2]. specialize (IH _ HB).
      rewrite (rsum_ext (nv b) _ (fun i => (1 - x (tdim b)) * Rabs (shapeC tol b (fun k => x k / (1 - x (tdim b))) i - shape b (fun k => x k / (1 - x (tdim b))) i))).
      2:{ intros i Hi. rewrite (proj2 (Nat.ltb_lt i (nv b))) by assumption. rewrite <- Rmult_minus_distr_l, Rabs_mult, (Rabs_pos_eq (1 - _)) by lra. reflexivity. }
      rewrite rsum_scal. nra.
    + assert (A : Rabs (1 - x (tdim b)) <= tol).
      { destruct (Rle_dec (Rabs (1 - x (tdim b))) tol); [assumption|]. rewrite (proj2 (away_true tol _ Ht)) in E by lra. discriminate. }
      destruct (Req_dec (x (tdim b)) 1) as [E1|N1].
      * rewrite rsum_0; [lra|]. intros i Hi. rewrite (proj2 (Nat.ltb_lt i (nv b))) by assumption.
        rewrite E1. replace (0 - (1 - 1) * _) with 0 by ring. apply Rabs_R0.
      * assert (HB := insideT_base b x H N1). destruct H as [H1 H2].
        rewrite (rsum_ext (nv b) _ (fun i => (1 - x (tdim b)) * (shape b (fun k => x k / (1 - x (tdim b))) i * 1))).
        2:{ intros i Hi. rewrite (proj2 (Nat.ltb_lt i (nv b))) by assumption. rewrite Rminus_0_l, Rabs_Ropp, Rmult_1_r. apply Rabs_pos_eq.
            apply Rmult_le_pos; [lra|]. now apply shape_nonneg. }
        rewrite rsum_scal, shape_sum. rewrite Rabs_pos_eq in A by lra. lra.
Qed.

(** reference corners are regular *)
Lemma rc_regular tol T : 0 <= tol < 1 -> forall i, (i < nv T)%nat -> regularC tol T (rc T i).
Proof.
  intro Ht. assert (X : forall T x y, (forall k, (k < tdim T)%nat -> x k = y k) -> regularC tol T x -> regularC tol T y).
  { induction T0 as [|b IH|b IH]; intros x y E; cbn [regularC tdim] in *; [auto| |].
    - apply IH. intros; apply E; lia.
    - intros [H1|[H1 H2]]; rewrite <- (E (tdim b)) by lia; [auto|right]. split; [assumption|]. revert H2. apply IH. intros k Hk. now rewrite E by lia. }
  induction T as [|b IH|b IH]; intros i Hi; cbn [regularC rc nv] in *; auto; destruct (Nat.ltb_spec i (nv b)).
  - auto.
  - apply (X b (rc b (i - nv b))); [|apply IH; lia]. intros k Hk. now rewrite upd_ne by lia.
  - right. rewrite rc_support by lia. split; [rewrite Rminus_0_r, Rabs_R1; lra|]. apply (X b (rc b i)); [|auto]. intros; field.
  - left. apply upd_eq.
Qed.
