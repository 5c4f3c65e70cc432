(** Corners, convex hull, positions and normals. *)
From Coq Require Import NArith PeanoNat Bool List Lia Reals Lra FunctionalExtensionality.
From Verif Require Import M_Type M_RefTopo M_RefGeo P_Type P_Type2 S_Topo P_Topo P_RefTopo P_RefTopo2 P_RefTopo3 P_RSum P_RefGeo S_RefGeo.
Import ListNotations.
Local Open Scope R_scope.

Lemma Ssum_rsum n f : Ssum n f = rsum n f. Proof. induction n; simpl; congruence. Qed.

Definition verts (T : Topo) : list Face := faces T (tdim T).

Lemma verts_Pt : verts Pt = [FPt]. Proof. reflexivity. Qed.
Lemma verts_Pri b : verts (Pri b) = map FBot (verts b) ++ map FTop (verts b).
Proof. unfold verts. cbn [tdim faces]. now rewrite faces_big by lia. Qed.
Lemma verts_Pyr b : verts (Pyr b) = map FBase (verts b) ++ [FApex].
Proof. unfold verts. cbn [tdim faces]. now rewrite (faces_big b (S (tdim b))), Nat.eqb_refl by lia. Qed.
Lemma in_verts T v : In v (verts T) <-> vertexF T v.
Proof. unfold verts, vertexF. apply in_faces. Qed.

(** ** Corners *)

Lemma vertex_Emb T v y : vertexF T v -> Emb T v y = forg T v.
Proof.
  intros [H1 H2]. apply functional_extensionality. intros k. rewrite Emb_Lin. unfold Lin.
  rewrite tdim_ftype, H2, Nat.sub_diag by assumption. simpl. lra.
Qed.

Lemma vertex_01 T : forall v k, vertexF T v -> forg T v k = 0 \/ forg T v k = 1.
Proof.
  induction T as [|b IH|b IH]; intros v k [H1 H2]; destruct v; cbn [is_face] in H1; try contradiction;
    cbn [forg fcod tdim] in *.
  - left; reflexivity.
  - exfalso. pose proof (fcod_le b v H1). lia.
  - apply IH. split; auto.
  - destruct (Nat.eq_dec k (tdim b)) as [->|]; [rewrite upd_eq; auto|rewrite upd_ne by assumption].
    apply IH. split; auto.
  - apply IH. split; auto.
  - exfalso. pose proof (fcod_le b v H1). lia.
  - destruct (Nat.eq_dec k (tdim b)) as [->|]; [rewrite upd_eq; auto|rewrite upd_ne by assumption].
    left; reflexivity.
Qed.

Lemma vertex_distinct T : forall v w, vertexF T v -> vertexF T w ->
  (forall k, (k < tdim T)%nat -> forg T v k = forg T w k) -> v = w.
Proof.
  induction T as [|b IH|b IH]; intros v w [V1 V2] [W1 W2] E; destruct v; cbn [is_face] in V1; try contradiction;
    destruct w; cbn [is_face] in W1; try contradiction; cbn [forg fcod tdim] in *; try reflexivity;
    try (exfalso; pose proof (fcod_le b _ V1); lia); try (exfalso; pose proof (fcod_le b _ W1); lia).
  - f_equal. apply IH; [split; auto|split; auto|]. intros k Hk. apply E. lia.
  - exfalso. specialize (E (tdim b) ltac:(lia)). rewrite upd_eq, forg_support in E by lia. lra.
  - exfalso. specialize (E (tdim b) ltac:(lia)). rewrite upd_eq, forg_support in E by lia. lra.
  - f_equal. apply IH; [split; auto|split; auto|]. intros k Hk. specialize (E k ltac:(lia)).
    now rewrite !upd_ne in E by lia.
  - f_equal. apply IH; [split; auto|split; auto|]. intros k Hk. apply E. lia.
  - exfalso. specialize (E (tdim b) ltac:(lia)). rewrite upd_eq, forg_support in E by lia. lra.
  - exfalso. specialize (E (tdim b) ltac:(lia)). rewrite upd_eq, forg_support in E by lia. lra.
Qed.

Lemma corner0 T : exists v l, verts T = v :: l /\ forg T v = vzero.
Proof.
  induction T as [|b (v & l & E & F)|b (v & l & E & F)].
  - exists FPt, []. auto.
  - rewrite verts_Pri, E. exists (FBot v). eexists. split; [reflexivity|assumption].
  - rewrite verts_Pyr, E. exists (FBase v). eexists. split; [reflexivity|assumption].
Qed.

Lemma nth_map_verts T i : (i < length (verts T))%nat ->
  nth i (map (forg T) (verts T)) vzero = forg T (nth i (verts T) FPt).
Proof. intros H. rewrite (nth_indep _ _ (forg T FPt)) by (now rewrite map_length). apply map_nth. Qed.

Lemma cubT_verts_length T : cubT T -> length (verts T) = (2 ^ tdim T)%nat.
Proof.
  induction T as [|b IH|b IH]; intros H; cbn [cubT] in H.
  - reflexivity.
  - rewrite verts_Pri, app_length, !map_length, IH by assumption. simpl. lia.
  - subst b. reflexivity.
Qed.
Lemma simT_verts_length T : simT T -> length (verts T) = S (tdim T).
Proof.
  induction T as [|b IH|b IH]; intros H; cbn [simT] in H.
  - reflexivity.
  - subst b. reflexivity.
  - rewrite verts_Pyr, app_length, map_length, IH by assumption. simpl. lia.
Qed.

Lemma testbit_high i n : (i < 2 ^ n)%nat -> Nat.testbit i n = false.
Proof.
  intros H. rewrite Nat.testbit_odd, Nat.shiftr_div_pow2, Nat.div_small by assumption. reflexivity.
Qed.
Lemma testbit_add_pow i n k : (i < 2 ^ n)%nat ->
  Nat.testbit (2 ^ n + i) k = if (k =? n)%nat then true else Nat.testbit i k.
Proof.
  intros H. rewrite !Nat.testbit_odd, !Nat.shiftr_div_pow2.
  destruct (Nat.eqb_spec k n) as [->|E].
  - replace (2 ^ n + i)%nat with (i + 1 * 2 ^ n)%nat by lia.
    rewrite Nat.div_add, Nat.div_small by (auto; apply Nat.pow_nonzero; lia). reflexivity.
  - destruct (Nat.lt_ge_cases k n) as [L|L].
    + replace (2 ^ n)%nat with (2 ^ (n - k) * 2 ^ k)%nat by (rewrite <- Nat.pow_add_r; f_equal; lia).
      rewrite Nat.div_add_l by (apply Nat.pow_nonzero; lia).
      replace (n - k)%nat with (S (n - k - 1)) by lia. rewrite Nat.pow_succ_r'.
      rewrite Nat.odd_add, Nat.odd_mul. simpl (Nat.odd 2). now rewrite andb_false_l, xorb_false_l.
    + assert (P : (2 ^ n + i < 2 ^ k)%nat).
      { assert (2 ^ S n <= 2 ^ k)%nat by (apply Nat.pow_le_mono_r; lia). simpl in H0. lia. }
      rewrite !Nat.div_small by lia. reflexivity.
Qed.

Lemma cubT_corner T : cubT T -> forall i k, (i < 2 ^ tdim T)%nat ->
  forg T (nth i (verts T) FPt) k = if Nat.testbit i k then 1 else 0.
Proof.
  induction T as [|b IH|b IH]; intros H i k Hi; cbn [cubT] in H.
  - cbn in Hi. replace i with O by lia. cbn [verts tdim faces nth forg]. now rewrite Nat.bits_0.
  - pose proof (cubT_verts_length b H) as L. rewrite verts_Pri. cbn [tdim] in Hi. rewrite Nat.pow_succ_r' in Hi.
    destruct (Nat.lt_ge_cases i (2 ^ tdim b)) as [Li|Li].
    + rewrite app_nth1 by (rewrite map_length; lia).
      rewrite (nth_indep _ _ (FBot FPt)), map_nth by (rewrite map_length; lia). cbn [forg]. now apply IH.
    + rewrite app_nth2 by (rewrite map_length; lia). rewrite map_length, L.
      rewrite (nth_indep _ _ (FTop FPt)), map_nth by (rewrite map_length; lia). cbn [forg].
      replace i with (2 ^ tdim b + (i - 2 ^ tdim b))%nat at 2 by lia. rewrite testbit_add_pow by lia.
      destruct (Nat.eqb_spec k (tdim b)) as [->|E]; [now rewrite upd_eq|rewrite upd_ne by assumption].
      apply IH; [assumption|lia].
  - subst b. cbn in Hi. destruct i as [|[|i]]; [| |lia]; cbn [verts tdim faces nth map app forg Nat.eqb].
    + now rewrite Nat.bits_0.
    + destruct k as [|k]; [reflexivity|]. unfold upd. cbn [Nat.eqb]. unfold vzero.
      cbn [Nat.testbit]. change (Nat.div2 1) with 0%nat. now rewrite Nat.bits_0.
Qed.

Lemma simT_corner T : simT T -> forall i k, (i <= tdim T)%nat ->
  forg T (nth i (verts T) FPt) k = if (i =? S k)%nat then 1 else 0.
Proof.
  induction T as [|b IH|b IH]; intros H i k Hi; cbn [simT] in H.
  - cbn in Hi. replace i with O by lia. reflexivity.
  - subst b. cbn in Hi. destruct i as [|[|i]]; [| |lia]; [reflexivity|].
    cbn [verts tdim faces nth map app forg]. destruct k; reflexivity.
  - pose proof (simT_verts_length b H) as L. rewrite verts_Pyr. cbn [tdim] in Hi.
    destruct (Nat.lt_ge_cases i (S (tdim b))) as [Li|Li].
    + rewrite app_nth1 by (rewrite map_length; lia).
      rewrite (nth_indep _ _ (FBase FPt)), map_nth by (rewrite map_length; lia). cbn [forg]. apply IH; [auto|lia].
    + rewrite app_nth2 by (rewrite map_length; lia). rewrite map_length, L.
      replace (i - S (tdim b))%nat with 0%nat by lia. cbn [nth forg].
      replace i with (S (tdim b)) by lia.
      destruct (Nat.eqb_spec (S (tdim b)) (S k)) as [E|E].
      * injection E as <-. now rewrite upd_eq.
      * rewrite upd_ne by congruence. reflexivity.
Qed.

(** ** Convex hull *)

Fixpoint insideT (T : Topo) (x : Vec) (a : R) : Prop :=
  match T with
  | Pt => True
  | Pri b => 0 <= x (tdim b) <= a /\ insideT b x a
  | Pyr b => 0 <= x (tdim b) <= a /\ insideT b x (a - x (tdim b))
  end.

Definition hullT (T : Topo) (x : Vec) (a : R) : Prop :=
  exists w : Face -> R, (forall v, In v (verts T) -> 0 <= w v) /\ lsum w (verts T) = a
    /\ forall k, (k < tdim T)%nat -> x k = lsum (fun v => w v * forg T v k) (verts T).

Lemma insideT_ext T : forall x y a, (forall k, (k < tdim T)%nat -> x k = y k) -> insideT T x a -> insideT T y a.
Proof.
  induction T as [|b IH|b IH]; intros x y a E; cbn [insideT tdim] in *; [auto| |];
    rewrite (E (tdim b)) by lia; intros [H1 H2]; (split; [assumption|]); eapply IH; eauto.
Qed.

Lemma insideT_hull T : forall x a, 0 <= a -> insideT T x a -> hullT T x a.
Proof.
  induction T as [|b IH|b IH]; intros x a Ha H; cbn [insideT] in H.
  - exists (fun _ => a). split; [auto|]. split; [cbn; lra|]. cbn. intros; lia.
  - destruct H as [Hx H]. destruct (IH x a Ha H) as (w & W0 & W1 & W2).
    destruct (Req_dec a 0) as [Z|NZ].
    + (* all weights zero *)
      exists (fun v => match v with FBot v => w v | _ => 0 end). rewrite verts_Pri. split; [|split].
      * intros v Hv. apply in_app_iff in Hv.
        destruct Hv as [Hv|Hv]; apply in_map_iff in Hv; destruct Hv as (u & <- & Hu); [auto|lra].
      * rewrite lsum_app, !lsum_map, (lsum_0 (fun _ => 0)) by reflexivity.
        rewrite <- W1. rewrite Rplus_0_r. apply lsum_ext. auto.
      * intros k Hk. cbn [tdim] in Hk. rewrite lsum_app, !lsum_map.
        rewrite (lsum_0 (fun a0 => 0 * _)) by (intros; lra). cbn [forg].
        destruct (Nat.eq_dec k (tdim b)) as [->|E].
        -- rewrite lsum_0; [lra|]. intros v _. rewrite forg_support by lia. lra.
        -- rewrite Rplus_0_r. apply W2. lia.
    + set (t := x (tdim b) / a).
      assert (T0 : 0 <= t <= 1).
      { unfold t. split; [apply Rle_div_r' || (apply Rmult_le_pos; [lra|left; apply Rinv_0_lt_compat; lra])|].
        apply (Rmult_le_reg_r a); [lra|]. unfold Rdiv. rewrite Rmult_assoc, Rinv_l by assumption. lra. }
      exists (fun v => match v with FBot v => (1 - t) * w v | FTop v => t * w v | _ => 0 end).
      rewrite verts_Pri. split; [|split].
      * intros v Hv. apply in_app_iff in Hv.
        destruct Hv as [Hv|Hv]; apply in_map_iff in Hv; destruct Hv as (u & <- & Hu);
          apply Rmult_le_pos; auto; lra.
      * rewrite lsum_app, !lsum_map, !lsum_scal, W1. lra.
      * intros k Hk. cbn [tdim] in Hk. rewrite lsum_app, !lsum_map. cbn [forg].
        destruct (Nat.eq_dec k (tdim b)) as [->|E].
        -- rewrite lsum_0 by (intros v _; rewrite forg_support by lia; lra).
           rewrite (lsum_ext _ (fun v => t * w v)) by (intros v _; rewrite upd_eq; lra).
           rewrite lsum_scal, W1. unfold t. field. assumption.
        -- rewrite (W2 k) by lia.
           rewrite (lsum_ext (fun a0 => t * w a0 * _) (fun v => t * (w v * forg b v k)))
             by (intros v _; rewrite upd_ne by assumption; lra).
           rewrite (lsum_ext (fun a0 => (1 - t) * w a0 * _) (fun v => (1 - t) * (w v * forg b v k)))
             by (intros v _; lra).
           rewrite !lsum_scal. lra.
  - destruct H as [Hx H]. destruct (IH x (a - x (tdim b)) ltac:(lra) H) as (w & W0 & W1 & W2).
    exists (fun v => match v with FBase v => w v | FApex => x (tdim b) | _ => 0 end).
    rewrite verts_Pyr. split; [|split].
    + intros v Hv. apply in_app_iff in Hv. destruct Hv as [Hv|[<-|[]]]; [|lra].
      apply in_map_iff in Hv; destruct Hv as (u & <- & Hu). auto.
    + rewrite lsum_app, lsum_map. cbn [lsum fold_right].
      rewrite (lsum_ext _ w) by reflexivity. rewrite W1. lra.
    + intros k Hk. cbn [tdim] in Hk. rewrite lsum_app, lsum_map. cbn [lsum fold_right forg].
      destruct (Nat.eq_dec k (tdim b)) as [->|E].
      * rewrite lsum_0 by (intros v _; rewrite forg_support by lia; lra). rewrite upd_eq. lra.
      * rewrite upd_ne by assumption. unfold vzero. rewrite <- (W2 k) by lia. lra.
Qed.

Lemma hull_insideT T : forall x a, hullT T x a -> 0 <= a /\ insideT T x a.
Proof.
  induction T as [|b IH|b IH]; intros x a (w & W0 & W1 & W2).
  - split; [|exact I]. rewrite <- W1. now apply lsum_nonneg.
  - split; [rewrite <- W1; now apply lsum_nonneg|].
    rewrite verts_Pri in *. cbn [insideT].
    rewrite lsum_app, !lsum_map in W1.
    assert (P1 : 0 <= lsum (fun a => w (FBot a)) (verts b)).
    { apply lsum_nonneg. intros v Hv. apply W0. apply in_app_iff. left. now apply in_map. }
    assert (P2 : 0 <= lsum (fun a => w (FTop a)) (verts b)).
    { apply lsum_nonneg. intros v Hv. apply W0. apply in_app_iff. right. now apply in_map. }
    assert (X : x (tdim b) = lsum (fun a => w (FTop a)) (verts b)).
    { rewrite W2 by (cbn; lia). rewrite lsum_app, !lsum_map. cbn [forg].
      rewrite lsum_0 by (intros v _; rewrite forg_support by lia; lra).
      rewrite Rplus_0_l. apply lsum_ext. intros v _. rewrite upd_eq. lra. }
    split; [lra|]. apply IH. exists (fun v => w (FBot v) + w (FTop v)). split; [|split].
    + intros v Hv.
      pose proof (W0 (FBot v) ltac:(apply in_app_iff; left; now apply in_map)).
      pose proof (W0 (FTop v) ltac:(apply in_app_iff; right; now apply in_map)). lra.
    + rewrite lsum_plus. assumption.
    + intros k Hk. rewrite W2 by (cbn [tdim]; lia). rewrite lsum_app, !lsum_map, <- lsum_plus.
      cbn [forg]. apply lsum_ext. intros v _. rewrite upd_ne by lia. lra.
  - split; [rewrite <- W1; now apply lsum_nonneg|].
    rewrite verts_Pyr in *. cbn [insideT].
    rewrite lsum_app, !lsum_map in W1. cbn [lsum fold_right] in W1.
    assert (P1 : 0 <= lsum (fun a => w (FBase a)) (verts b)).
    { apply lsum_nonneg. intros v Hv. apply W0. apply in_app_iff. left. now apply in_map. }
    assert (P2 : 0 <= w FApex) by (apply W0; apply in_app_iff; right; now left).
    assert (X : x (tdim b) = w FApex).
    { rewrite W2 by (cbn; lia). rewrite lsum_app, !lsum_map. cbn [forg lsum fold_right].
      rewrite lsum_0 by (intros v _; rewrite forg_support by lia; lra). rewrite upd_eq. lra. }
    unfold lsum at 1 in W1. fold (lsum (fun a => w (FBase a)) (verts b)) in W1.
    split; [lra|]. apply IH. exists (fun v => w (FBase v)). split; [|split].
    + intros v Hv. apply W0. apply in_app_iff. left. now apply in_map.
    + lra.
    + intros k Hk. rewrite W2 by (cbn [tdim]; lia). rewrite lsum_app, !lsum_map.
      cbn [forg lsum fold_right]. rewrite upd_ne by lia. unfold vzero.
      fold (lsum (fun v => w (FBase v) * forg b v k) (verts b)). lra.
Qed.

(** face-indexed and number-indexed weights *)
Lemma lsum_nth {A} (f : A -> R) l d : lsum f l = rsum (length l) (fun i => f (nth i l d)).
Proof.
  induction l as [|a l IH]; [reflexivity|]. cbn [length]. rewrite rsum_shift, lsum_cons, IH. reflexivity.
Qed.

Lemma fidx_nth_verts T i : (i < length (verts T))%nat ->
  fidx T (nth i (verts T) FPt) = i /\ vertexF T (nth i (verts T) FPt).
Proof.
  intros H. pose proof (nth_error_nth' _ FPt H) as E. apply nth_face in E.
  destruct E as (A & B & C). split; [assumption|split; assumption].
Qed.

Lemma in_hull_hullT T x : in_hull (tdim T) (map (forg T) (verts T)) x <-> hullT T x 1.
Proof.
  unfold in_hull. rewrite map_length. split.
  - intros (w & W0 & W1 & W2). rewrite Ssum_rsum in W1. exists (fun v => w (fidx T v)). split; [|split].
    + intros v Hv. apply in_verts in Hv. destruct Hv as [H1 H2]. apply W0.
      unfold verts. rewrite <- H2. now apply fidx_lt.
    + rewrite (lsum_nth _ _ FPt), <- W1. apply rsum_ext. intros i Hi.
      now rewrite (proj1 (fidx_nth_verts T i Hi)).
    + intros k Hk. rewrite (W2 k Hk), Ssum_rsum, (lsum_nth _ _ FPt). apply rsum_ext. intros i Hi.
      rewrite (proj1 (fidx_nth_verts T i Hi)). f_equal. change (fun _ : nat => 0) with vzero.
      now rewrite nth_map_verts.
  - intros (w & W0 & W1 & W2). exists (fun i => w (nth i (verts T) FPt)). split; [|split].
    + intros i Hi. apply W0. now apply nth_In.
    + rewrite Ssum_rsum, <- W1. symmetry. apply lsum_nth.
    + intros k Hk. rewrite (W2 k Hk), Ssum_rsum, (lsum_nth _ _ FPt). apply rsum_ext. intros i Hi. f_equal.
      change (fun _ : nat => 0) with vzero. now rewrite nth_map_verts.
Qed.

Lemma in_hull_insideT T x : in_hull (tdim T) (map (forg T) (verts T)) x <-> insideT T x 1.
Proof.
  rewrite in_hull_hullT. split.
  - intros H. now apply hull_insideT in H.
  - apply insideT_hull. lra.
Qed.

(** ** checkInside *)

Lemma Rltb_true a b : Rltb a b = true <-> a < b.
Proof. unfold Rltb. destruct (Rlt_dec a b); split; auto; discriminate. Qed.

Fixpoint acceptT (T : Topo) (x : Vec) (tol a : R) : Prop :=
  match T with
  | Pt => True
  | Pri b => (- tol < x (tdim b) /\ - tol < a - x (tdim b)) /\ acceptT b x tol a
  | Pyr b => (- tol < x (tdim b) /\ - tol < a - x (tdim b)) /\ acceptT b x tol (a - x (tdim b))
  end.

Lemma checkInside_spec dim : forall id x tol a,
  checkInside id dim x tol a = true <-> acceptT (topo_of id dim) x tol a.
Proof.
  induction dim as [|d IH]; intros id x tol a; [cbn; tauto|].
  cbn [checkInside].
  assert (G : forall c : bool, (if c then checkInside (baseTopologyId id (S d) 1) d x tol
     (if isPrism id (S d) 0 then a else a - x d) else false) = true
     <-> c = true /\ acceptT (topo_of id d) x tol (if isPrism id (S d) 0 then a else a - x d)).
  { intros []; rewrite ?IH, ?topo_of_base; intuition discriminate. }
  rewrite G, andb_true_iff, !Rltb_true.
  destruct (topo_cases id d) as [[-> ->]|[[-> ->]|(-> & -> & ->)]]; cbn [acceptT]; rewrite ?tdim_topo_of; cbn [tdim topo_of acceptT]; tauto.
Qed.

Lemma insideT_accept T : forall x tol a, 0 < tol -> insideT T x a -> acceptT T x tol a.
Proof.
  induction T as [|b IH|b IH]; intros x tol a Ht H; cbn [insideT acceptT] in *; [exact I| |];
    destruct H as [H1 H2]; (split; [lra|auto]).
Qed.
Lemma acceptT_mono T : forall x tol tol' a, tol <= tol' -> acceptT T x tol a -> acceptT T x tol' a.
Proof.
  induction T as [|b IH|b IH]; intros x tol tol' a Ht H; cbn [acceptT] in *; [exact I| |];
    destruct H as [H1 H2]; (split; [lra|eauto]).
Qed.
Lemma acceptT_inter T : forall x a, (forall tol, 0 < tol -> acceptT T x tol a) -> insideT T x a.
Proof.
  assert (L : forall y, (forall t, 0 < t -> - t < y) -> 0 <= y).
  { intros y H. destruct (Rle_lt_dec 0 y); [assumption|]. specialize (H (- y) ltac:(lra)). lra. }
  induction T as [|b IH|b IH]; intros x a H; cbn [acceptT insideT] in *; [exact I| |].
  - split.
    + split; [apply L; intros t Ht; apply (H t Ht)|].
      enough (0 <= a - x (tdim b)) by lra. apply L; intros t Ht; apply (H t Ht).
    + apply IH. intros t Ht. apply (H t Ht).
  - split.
    + split; [apply L; intros t Ht; apply (H t Ht)|].
      enough (0 <= a - x (tdim b)) by lra. apply L; intros t Ht; apply (H t Ht).
    + apply IH. intros t Ht. apply (H t Ht).
Qed.

Lemma insideT_bound T : forall x a k, 0 <= a -> insideT T x a -> (k < tdim T)%nat -> 0 <= x k <= a.
Proof.
  induction T as [|b IH|b IH]; intros x a k Ha H Hk; cbn [insideT tdim] in *; [lia| |]; destruct H as [H1 H2].
  - destruct (Nat.eq_dec k (tdim b)) as [->|]; [lra|]. apply (IH x a k); auto. lia.
  - destruct (Nat.eq_dec k (tdim b)) as [->|]; [lra|].
    pose proof (IH x (a - x (tdim b)) k ltac:(lra) H2 ltac:(lia)). lra.
Qed.
Lemma insideT_scale T : forall x a c, 0 <= c -> insideT T x a -> insideT T (vscale c x) (c * a).
Proof.
  induction T as [|b IH|b IH]; intros x a c Hc H; cbn [insideT] in *; [exact I| |]; destruct H as [H1 H2].
  - split; [|auto]. unfold vscale. split; [apply Rmult_le_pos; lra|apply Rmult_le_compat_l; lra].
  - split; [unfold vscale; split; [apply Rmult_le_pos; lra|apply Rmult_le_compat_l; lra]|].
    unfold vscale at 2. replace (c * a - c * x (tdim b)) with (c * (a - x (tdim b))) by lra. auto.
Qed.
(** shrinking *)
Lemma insideT_shrink T x s s' : 0 <= s' <= s -> insideT T x s ->
  exists y, insideT T y s' /\ forall k, (k < tdim T)%nat -> Rabs (x k - y k) <= s - s'.
Proof.
  intros Hs H. destruct (Req_dec s 0) as [Z|NZ].
  - exists x. replace s' with s by lra. split; [assumption|]. intros k Hk. rewrite Rminus_diag_eq by reflexivity.
    rewrite Rabs_R0. lra.
  - exists (vscale (s' / s) x). assert (C : 0 <= s' / s <= 1).
    { split; [apply Rmult_le_pos; [lra|left; apply Rinv_0_lt_compat; lra]|].
      apply (Rmult_le_reg_r s); [lra|]. unfold Rdiv. rewrite Rmult_assoc, Rinv_l by assumption. lra. }
    split.
    + replace s' with (s' / s * s) at 2 by (field; assumption). apply insideT_scale; [lra|assumption].
    + intros k Hk. pose proof (insideT_bound T x s k ltac:(lra) H Hk) as B. unfold vscale.
      replace (x k - s' / s * x k) with ((1 - s' / s) * x k) by lra.
      rewrite Rabs_right by (apply Rle_ge, Rmult_le_pos; lra).
      apply Rle_trans with ((1 - s' / s) * s); [apply Rmult_le_compat_l; lra|].
      right. field. assumption.
Qed.

Lemma upd_inside T x k v a : (tdim T <= k)%nat -> insideT T (upd x k v) a <-> insideT T x a.
Proof.
  intros H. split; apply insideT_ext; intros j Hj; rewrite upd_ne by lia; reflexivity.
Qed.

Lemma acceptT_near T : forall x tol a, 0 < tol -> - tol <= a -> acceptT T x tol a ->
  exists y, insideT T y (Rmax a 0)
    /\ forall k, (k < tdim T)%nat -> Rabs (x k - y k) <= INR (tdim T) * tol.
Proof.
  induction T as [|b IH|b IH]; intros x tol a Ht Ha H; cbn [acceptT] in H.
  - exists x. split; [exact I|]. cbn [tdim]. intros; lia.
  - destruct H as [[H1 H2] H3]. destruct (IH x tol a Ht Ha H3) as (y & Y1 & Y2).
    set (z := Rmax 0 (Rmin (x (tdim b)) (Rmax a 0))).
    assert (Zb : 0 <= z <= Rmax a 0 /\ Rabs (x (tdim b) - z) <= tol).
    { unfold z, Rmax, Rmin. repeat destruct (Rle_dec _ _); repeat split; try lra;
        apply Rabs_le; lra. }
    exists (upd y (tdim b) z). split.
    + cbn [insideT]. rewrite upd_eq. split; [apply Zb|]. apply upd_inside; auto.
    + cbn [tdim]. rewrite S_INR. intros k Hk. pose proof (pos_INR (tdim b)) as P.
      destruct (Nat.eq_dec k (tdim b)) as [->|E].
      * rewrite upd_eq. pose proof (Rmult_le_pos _ _ P (Rlt_le _ _ Ht)). lra.
      * rewrite upd_ne by assumption. specialize (Y2 k ltac:(lia)). lra.
  - destruct H as [[H1 H2] H3].
    destruct (IH x tol (a - x (tdim b)) Ht ltac:(lra) H3) as (y & Y1 & Y2).
    set (z := Rmax 0 (Rmin (x (tdim b)) (Rmax a 0))).
    assert (Zb : 0 <= z <= Rmax a 0 /\ Rabs (x (tdim b) - z) <= tol).
    { unfold z, Rmax, Rmin. repeat destruct (Rle_dec _ _); repeat split; try lra;
        apply Rabs_le; lra. }
    assert (SH : 0 <= Rmax a 0 - z <= Rmax (a - x (tdim b)) 0
                 /\ Rmax (a - x (tdim b)) 0 - (Rmax a 0 - z) <= tol).
    { unfold z, Rmax, Rmin. repeat destruct (Rle_dec _ _); repeat split; lra. }
    destruct (insideT_shrink b y _ _ (proj1 SH) Y1) as (y' & Z1 & Z2).
    exists (upd y' (tdim b) z). split.
    + cbn [insideT]. rewrite upd_eq. split; [apply Zb|]. apply upd_inside; auto.
    + cbn [tdim]. rewrite S_INR. intros k Hk. pose proof (pos_INR (tdim b)) as P.
      destruct (Nat.eq_dec k (tdim b)) as [->|E].
      * rewrite upd_eq. pose proof (Rmult_le_pos _ _ P (Rlt_le _ _ Ht)). lra.
      * rewrite upd_ne by assumption. specialize (Y2 k ltac:(lia)). specialize (Z2 k ltac:(lia)).
        replace (x k - y' k) with ((x k - y k) + (y k - y' k)) by lra.
        eapply Rle_trans; [apply Rabs_triang|]. lra.
Qed.
