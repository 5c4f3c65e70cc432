(** Properties of the shape functions. *)
From Coq Require Import PeanoNat NArith Lia Bool List Reals Lra FunctionalExtensionality.
From Coquelicot Require Import Coquelicot.
From Verif Require Import M_Type M_RefTopo M_RefGeo M_Matrix M_MultiLinear S_Topo S_MultiLinear P_Type P_RefTopo P_RefTopo3 P_RSum P_RefGeo P_RefGeo2 P_RefGeo4 P_Matrix2 P_ML1.
Import ListNotations.
Local Open Scope R_scope.

Lemma away_true tol c : 0 <= tol -> (away tol c = true <-> tol < Rabs c).
Proof.
  intro H. unfold away. rewrite orb_true_iff, !Rltb_true. unfold Rabs. destruct (Rcase_abs c); split; intros; lra.
Qed.
Lemma away_nz tol c : 0 <= tol -> away tol c = true -> c <> 0.
Proof. intros H A. apply away_true in A; [|assumption]. intros ->. rewrite Rabs_R0 in A. lra. Qed.
Lemma away_0 tol : 0 <= tol -> away tol 0 = false.
Proof. intro H. destruct (away tol 0) eqn:E; [|reflexivity]. exfalso. now apply (away_nz tol 0 H E). Qed.

(** ** reading of the lowest bit *)
Lemma lt_S id d : lt id (S d) = if N.testbit id (N.of_nat d) || (d =? 0)%nat then Pri (lt id d) else Pyr (lt id d).
Proof.
  unfold lt. cbn [topo_of]. rewrite N.lor_spec. replace (N.testbit 1 (N.of_nat d)) with (Nat.eqb d 0); [reflexivity|].
  destruct d; [reflexivity|]. symmetry. apply N.bits_above_log2. simpl. lia.
Qed.
Lemma topo_S id d : topo_of id (S d) = if N.testbit id (N.of_nat d) then Pri (topo_of id d) else Pyr (topo_of id d).
Proof. reflexivity. Qed.
Lemma nv_lt id : forall dim, nv (lt id dim) = nv (topo_of id dim).
Proof.
  induction dim; [reflexivity|]. rewrite lt_S, topo_S. destruct (N.testbit id (N.of_nat dim)); cbn [orb nv]; [now rewrite IHdim|].
  destruct dim; [reflexivity|]. cbn [Nat.eqb nv]. now rewrite IHdim.
Qed.
Lemma shape_lt id : forall dim x i, shape (lt id dim) x i = shape (topo_of id dim) x i.
Proof.
  induction dim; intros x i; [reflexivity|]. rewrite lt_S, topo_S.
  destruct (N.testbit id (N.of_nat dim)); cbn [orb].
  - cbn [shape]. rewrite nv_lt, !IHdim. unfold lt. now rewrite !tdim_topo.
  - destruct dim; [cbn; destruct i as [|i]; cbn; ring|]. cbn [Nat.eqb]. cbn [shape]. rewrite nv_lt, IHdim. unfold lt. now rewrite !tdim_topo.
Qed.
Fixpoint regularC (tol : R) (T : Topo) (x : Vec) : Prop :=
  match T with
  | Pt => True
  | Pri b => regularC tol b x
  | Pyr b => x (tdim b) = 1 \/ (tol < Rabs (1 - x (tdim b)) /\ regularC tol b (fun k => x k / (1 - x (tdim b))))
  end.
Fixpoint smoothC (tol : R) (T : Topo) (x : Vec) : Prop :=
  match T with
  | Pt => True
  | Pri b => smoothC tol b x
  | Pyr b => tol < Rabs (1 - x (tdim b)) /\ smoothC tol b (fun k => x k / (1 - x (tdim b)))
  end.
Lemma topo_Pt id d : topo_of id d = Pt -> d = 0%nat.
Proof. intro H. apply (f_equal tdim) in H. now rewrite tdim_topo in H. Qed.
Lemma regular_lt tol id : forall dim x, regular tol (topo_of id dim) x -> regularC tol (lt id dim) x.
Proof.
  induction dim; intros x H; [exact I|]. rewrite lt_S. rewrite topo_S in H.
  destruct (N.testbit id (N.of_nat dim)); cbn [orb]; cbn [regular regularC] in *; [now apply IHdim|].
  destruct H as [H|[H|[H1 H2]]].
  - apply topo_Pt in H. subst. exact I.
  - destruct dim; [exact I|]. cbn [Nat.eqb regularC]. left. unfold lt. now rewrite tdim_topo in *.
  - destruct dim; [exact I|]. cbn [Nat.eqb regularC]. right. unfold lt. rewrite tdim_topo in *. auto.
Qed.
Lemma smooth_lt tol id : forall dim x, smooth tol (topo_of id dim) x -> smoothC tol (lt id dim) x.
Proof.
  induction dim; intros x H; [exact I|]. rewrite lt_S. rewrite topo_S in H.
  destruct (N.testbit id (N.of_nat dim)); cbn [orb]; cbn [smooth smoothC] in *; [now apply IHdim|].
  destruct H as [H|[H1 H2]].
  - apply topo_Pt in H. subst. exact I.
  - destruct dim; [exact I|]. cbn [Nat.eqb smoothC]. unfold lt. rewrite tdim_topo in *. auto.
Qed.
Lemma regular_0 T : forall x, regular 0 T x.
Proof.
  induction T; intro x; cbn [regular]; auto. destruct (Req_dec (x (tdim T)) 1); [auto|]. right. right.
  split; [|apply IHT]. apply Rabs_pos_lt. lra.
Qed.
Lemma smooth_regular tol T : forall x, smooth tol T x -> regular tol T x.
Proof. induction T; intros x H; cbn [regular smooth] in *; auto. destruct H as [H|[H1 H2]]; auto. Qed.

Lemma shapeC_shape tol T : 0 <= tol -> forall x i, regularC tol T x -> (i < nv T)%nat -> shapeC tol T x i = shape T x i.
Proof.
  intro Ht. induction T as [|b IH|b IH]; intros x i H Hi; cbn [shapeC shape regularC nv] in *; [reflexivity| |].
  - destruct (Nat.ltb_spec i (nv b)); rewrite IH by (auto; lia); reflexivity.
  - destruct (Nat.ltb_spec i (nv b)); [|reflexivity]. destruct H as [H|[H1 H2]].
    + rewrite H, Rminus_diag_eq, away_0 by auto. ring.
    + rewrite (proj2 (away_true tol _ Ht) H1), IH by auto. reflexivity.
Qed.

(** ** algebra of the shape functions *)
Lemma shape_ext T : forall x y i, (forall k, (k < tdim T)%nat -> x k = y k) -> shape T x i = shape T y i.
Proof.
  induction T as [|b IH|b IH]; intros x y i E; cbn [shape tdim] in *; [reflexivity| |].
  - rewrite (E (tdim b)) by lia. rewrite !(IH x y) by auto. reflexivity.
  - rewrite (E (tdim b)) by lia. rewrite (IH (fun k => x k / _) (fun k => y k / (1 - y (tdim b)))); [reflexivity|].
    intros k Hk. now rewrite E by lia.
Qed.
Lemma sum_Pri b x (f : nat -> R) :
  rsum (nv (Pri b)) (fun i => shape (Pri b) x i * f i) =
  (1 - x (tdim b)) * rsum (nv b) (fun i => shape b x i * f i) + x (tdim b) * rsum (nv b) (fun i => shape b x i * f (nv b + i)%nat).
Proof.
  cbn [nv shape]. rewrite rsum_app. f_equal; rewrite <- rsum_scal; apply rsum_ext; intros i Hi.
  - rewrite (proj2 (Nat.ltb_lt i (nv b))) by assumption. ring.
  - rewrite (proj2 (Nat.ltb_ge (nv b + i) (nv b))) by lia. replace (nv b + i - nv b)%nat with i by lia. ring.
Qed.
Lemma sum_Pyr b x (f : nat -> R) :
  rsum (nv (Pyr b)) (fun i => shape (Pyr b) x i * f i) =
  (1 - x (tdim b)) * rsum (nv b) (fun i => shape b (fun k => x k / (1 - x (tdim b))) i * f i) + x (tdim b) * f (nv b).
Proof.
  cbn [nv shape]. rewrite rsum_app. f_equal.
  - rewrite <- rsum_scal. apply rsum_ext. intros i Hi. rewrite (proj2 (Nat.ltb_lt i (nv b))) by assumption. ring.
  - cbn [rsum]. rewrite Nat.add_0_r, Nat.ltb_irrefl. ring.
Qed.
Lemma shape_sum T : forall x, rsum (nv T) (fun i => shape T x i * 1) = 1.
Proof.
  induction T as [|b IH|b IH]; intro x.
  - simpl. ring.
  - rewrite sum_Pri, IH. ring.
  - rewrite sum_Pyr, IH. ring.
Qed.

Lemma tdim_lt id dim : tdim (lt id dim) = dim.
Proof. unfold lt. apply tdim_topo. Qed.
(** reference corners *)
Fixpoint rc (T : Topo) (i : nat) : Vec :=
  match T with
  | Pt => vzero
  | Pri b => if Nat.ltb i (nv b) then rc b i else upd (rc b (i - nv b)) (tdim b) 1
  | Pyr b => if Nat.ltb i (nv b) then rc b i else upd vzero (tdim b) 1
  end.
Lemma nv_verts T : length (verts T) = nv T.
Proof.
  induction T as [|b IH|b IH]; [reflexivity| |]; cbn [nv].
  - rewrite verts_Pri, app_length, !map_length. lia.
  - rewrite verts_Pyr, app_length, map_length. simpl. lia.
Qed.
Lemma rc_verts T : forall i, (i < nv T)%nat -> nth i (map (forg T) (verts T)) vzero = rc T i.
Proof.
  induction T as [|b IH|b IH]; intros i Hi; cbn [rc nv] in *.
  - rewrite verts_Pt. cbn [map]. destruct i; [reflexivity|lia].
  - rewrite verts_Pri, map_app, !map_map. cbn [forg].
    assert (L : length (map (fun x => forg b x) (verts b)) = nv b) by (rewrite map_length; apply nv_verts).
    destruct (Nat.ltb_spec i (nv b)).
    + rewrite app_nth1 by (rewrite L; lia). now apply IH.
    + rewrite app_nth2 by (rewrite L; lia). rewrite L. rewrite <- IH by lia.
      rewrite <- (map_map (forg b) (fun v => upd v (tdim b) 1)).
      rewrite (nth_indep _ vzero (upd vzero (tdim b) 1)) by (rewrite !map_length, nv_verts; lia).
      exact (map_nth (fun v : Vec => upd v (tdim b) 1) _ vzero _).
  - rewrite verts_Pyr, map_app, map_map. cbn [forg map].
    assert (L : length (map (fun x => forg b x) (verts b)) = nv b) by (rewrite map_length; apply nv_verts).
    destruct (Nat.ltb_spec i (nv b)).
    + rewrite app_nth1 by (rewrite L; lia). now apply IH.
    + rewrite app_nth2 by (rewrite L; lia). rewrite L. replace (i - nv b)%nat with 0%nat by lia. reflexivity.
Qed.
Lemma rc_support T : forall i k, (tdim T <= k)%nat -> rc T i k = 0.
Proof.
  induction T as [|b IH|b IH]; intros i k Hk; cbn [rc tdim] in *; [reflexivity| |]; destruct (Nat.ltb i (nv b)).
  1,3: apply IH; lia.
  - rewrite upd_ne by lia. apply IH. lia.
  - rewrite upd_ne by lia. reflexivity.
Qed.
Lemma nv_size id dim : nv (topo_of id dim) = length (referenceCorners id dim).
Proof. rewrite corners_verts, map_length. now rewrite nv_verts. Qed.
Lemma rc_corner id dim i : (i < nv (topo_of id dim))%nat -> nth i (referenceCorners id dim) vzero = rc (topo_of id dim) i.
Proof. intro H. rewrite corners_verts. now apply rc_verts. Qed.
Lemma rc_lt id : forall dim i, (i < nv (topo_of id dim))%nat -> rc (lt id dim) i = rc (topo_of id dim) i.
Proof.
  induction dim; intros i Hi; [reflexivity|]. rewrite lt_S. rewrite topo_S in *.
  destruct (N.testbit id (N.of_nat dim)); cbn [orb]; cbn [rc nv] in *.
  - rewrite nv_lt, tdim_lt, !tdim_topo. destruct (Nat.ltb_spec i (nv (topo_of id dim))); rewrite IHdim by lia; reflexivity.
  - destruct dim.
    + reflexivity.
    + cbn [Nat.eqb rc]. rewrite nv_lt, tdim_lt, !tdim_topo.
      destruct (Nat.ltb_spec i (nv (topo_of id (S dim)))); [|reflexivity]. apply IHdim. lia.
Qed.

Lemma shape_delta T : forall i j, (i < nv T)%nat -> (j < nv T)%nat -> shape T (rc T j) i = if Nat.eqb i j then 1 else 0.
Proof.
  induction T as [|b IH|b IH]; intros i j Hi Hj.
  - cbn in *. replace i with 0%nat by lia. replace j with 0%nat by lia. reflexivity.
  - cbn [shape rc nv] in *. destruct (Nat.ltb_spec j (nv b)) as [J|J].
    + rewrite rc_support by lia. destruct (Nat.ltb_spec i (nv b)) as [I|I].
      * rewrite IH by lia. ring.
      * rewrite (proj2 (Nat.eqb_neq i j)) by lia. ring.
    + rewrite upd_eq. assert (E : forall l, shape b (upd (rc b (j - nv b)) (tdim b) 1) l = shape b (rc b (j - nv b)) l).
      { intro l. apply shape_ext. intros k Hk. apply upd_ne. lia. }
      rewrite !E. destruct (Nat.ltb_spec i (nv b)) as [I|I].
      * rewrite (proj2 (Nat.eqb_neq i j)) by lia. ring.
      * rewrite IH by lia. destruct (Nat.eqb_spec i j), (Nat.eqb_spec (i - nv b) (j - nv b)); try lia; ring.
  - cbn [shape rc nv] in *. destruct (Nat.ltb_spec j (nv b)) as [J|J].
    + rewrite rc_support by lia. destruct (Nat.ltb_spec i (nv b)) as [I|I].
      * rewrite (shape_ext b _ (rc b j)); [rewrite IH by lia; ring|]. intros k Hk. field.
      * rewrite (proj2 (Nat.eqb_neq i j)) by lia. reflexivity.
    + rewrite upd_eq. destruct (Nat.ltb_spec i (nv b)) as [I|I].
      * rewrite (proj2 (Nat.eqb_neq i j)) by lia. ring.
      * rewrite (proj2 (Nat.eqb_eq i j)) by lia. reflexivity.
Qed.

(** scaling of the inside test *)
Lemma insideT_div T : forall x a s, 0 < s -> insideT T x a -> insideT T (fun k => x k / s) (a / s).
Proof.
  assert (D : forall u v s, 0 < s -> u <= v -> u / s <= v / s).
  { intros u v s Hs H. unfold Rdiv. apply Rmult_le_compat_r; [|assumption]. left. now apply Rinv_0_lt_compat. }
  assert (Z : forall u s, 0 < s -> 0 <= u -> 0 <= u / s).
  { intros u s Hs H. replace 0 with (0 / s) by (field; lra). now apply D. }
  induction T as [|b IH|b IH]; intros x a s Hs H; cbn [insideT] in *; [exact I| |]; destruct H as [[H1 H2] H3].
  - split; [|now apply IH]. split; [now apply Z|now apply D].
  - split; [split; [now apply Z|now apply D]|].
    replace (a / s - x (tdim b) / s) with ((a - x (tdim b)) / s) by (field; lra). now apply IH.
Qed.
Lemma insideT_base b x : insideT (Pyr b) x 1 -> x (tdim b) <> 1 -> insideT b (fun k => x k / (1 - x (tdim b))) 1.
Proof.
  intros [[H1 H2] H3] N. assert (P : 0 < 1 - x (tdim b)) by lra.
  assert (Q := insideT_div b x _ _ P H3). now replace ((1 - x (tdim b)) / (1 - x (tdim b))) with 1 in Q by (field; lra).
Qed.
Lemma insideT_zero T : forall x, insideT T x 0 -> forall k, (k < tdim T)%nat -> x k = 0.
Proof.
  induction T as [|b IH|b IH]; intros x H k Hk; cbn [insideT tdim] in *; [lia| |]; destruct H as [H1 H2].
  - destruct (Nat.eq_dec k (tdim b)); [subst; lra|]. apply IH; [assumption|lia].
  - destruct (Nat.eq_dec k (tdim b)); [subst; lra|]. apply IH; [|lia]. now replace (0 - x (tdim b)) with 0 in H2 by lra.
Qed.
Lemma shape_nonneg T : forall x i, insideT T x 1 -> 0 <= shape T x i.
Proof.
  induction T as [|b IH|b IH]; intros x i H.
  - cbn. lra.
  - destruct H as [H1 H2]. cbn [shape]. destruct (Nat.ltb i (nv b)); apply Rmult_le_pos; auto; lra.
  - cbn [shape]. destruct (Nat.ltb i (nv b)); [|apply H].
    destruct (Req_dec (x (tdim b)) 1) as [E|E]; [rewrite E, Rminus_diag_eq by reflexivity; lra|].
    apply Rmult_le_pos; [destruct H; lra|]. apply IH. now apply insideT_base.
Qed.

(** linear precision *)
Lemma smooth0_ne T x : smoothC 0 (Pyr T) x -> 1 - x (tdim T) <> 0 /\ smoothC 0 T (fun k => x k / (1 - x (tdim T))).
Proof. intros [H1 H2]. split; [|assumption]. intro E. rewrite E, Rabs_R0 in H1. lra. Qed.
Lemma linear_precision T : forall x, smoothC 0 T x \/ insideT T x 1 -> forall k, (k < tdim T)%nat ->
  rsum (nv T) (fun i => shape T x i * rc T i k) = x k.
Proof.
  induction T as [|b IH|b IH]; intros x H k Hk; cbn [tdim] in *; [lia| |].
  - assert (HB : smoothC 0 b x \/ insideT b x 1) by (destruct H as [H|H]; [left|right]; apply H).
    rewrite sum_Pri. rewrite (rsum_ext (nv b) _ (fun i => shape b x i * rc b i k)).
    2:{ intros i Hi. cbn [rc]. now rewrite (proj2 (Nat.ltb_lt i (nv b))) by assumption. }
    destruct (Nat.eq_dec k (tdim b)).
    + subst k. rewrite (rsum_ext (nv b) (fun i => _ * rc (Pri b) _ _) (fun i => shape b x i * 1)).
      2:{ intros i Hi. cbn [rc]. rewrite (proj2 (Nat.ltb_ge (nv b + i) (nv b))), upd_eq by lia. reflexivity. }
      rewrite shape_sum, rsum_0; [ring|]. intros i Hi. rewrite rc_support by lia. ring.
    + rewrite (rsum_ext (nv b) (fun i => _ * rc (Pri b) _ _) (fun i => shape b x i * rc b i k)).
      2:{ intros i Hi. cbn [rc]. rewrite (proj2 (Nat.ltb_ge (nv b + i) (nv b))), upd_ne by lia. do 2 f_equal. lia. }
      rewrite IH by (auto; lia). ring.
  - rewrite sum_Pyr. rewrite (rsum_ext (nv b) _ (fun i => shape b (fun k => x k / (1 - x (tdim b))) i * rc b i k)).
    2:{ intros i Hi. cbn [rc]. now rewrite (proj2 (Nat.ltb_lt i (nv b))) by assumption. }
    cbn [rc]. rewrite Nat.ltb_irrefl. destruct (Nat.eq_dec k (tdim b)).
    + subst k. rewrite upd_eq, rsum_0; [ring|]. intros i Hi. rewrite rc_support by lia. ring.
    + rewrite upd_ne by lia. unfold vzero. destruct (Req_dec (x (tdim b)) 1) as [E|E].
      * rewrite E. assert (Z : x k = 0).
        { destruct H as [H|H].
          - destruct (smooth0_ne _ _ H) as [Q _]. lra.
          - destruct H as [_ H]. rewrite E, Rminus_diag_eq in H by reflexivity. apply (insideT_zero b); auto. lia. }
        rewrite Z. ring.
      * rewrite IH.
        -- field. lra.
        -- destruct H as [H|H]; [left; now apply smooth0_ne|right; now apply insideT_base].
        -- lia.
Qed.

(** ** explicit formulas *)
Lemma shape_cube T : cubT T -> forall x i, (i < nv T)%nat ->
  shape T x i = fold_right Rmult 1 (map (fun k => if Nat.testbit i k then x k else 1 - x k) (seq 0 (tdim T))).
Proof.
  assert (F : forall b L, fold_right Rmult b L = fold_right Rmult 1 L * b).
  { induction L; simpl; [ring|]. rewrite IHL. ring. }
  assert (NV : forall T, cubT T -> nv T = (2 ^ tdim T)%nat) by (intros; rewrite <- nv_verts; now apply cubT_verts_length).
  induction T as [|b IH|b IH]; intros H x i Hi.
  - reflexivity.
  - cbn [cubT] in H. cbn [shape tdim nv] in *. rewrite seq_S, map_app, fold_right_app. cbn [Nat.add map fold_right]. rewrite F, Rmult_1_r.
    rewrite (NV b H) in *. destruct (Nat.ltb_spec i (2 ^ tdim b)).
    + rewrite IH by auto. rewrite (Nat.testbit_eqb i (tdim b)), Nat.div_small by assumption. simpl. ring.
    + rewrite IH by (auto; lia). set (i' := (i - 2 ^ tdim b)%nat) in *.
      assert (Ei : i = (i' + 2 ^ tdim b)%nat) by (unfold i'; lia).
      assert (Hi' : (i' < 2 ^ tdim b)%nat) by lia.
      assert (TB : Nat.testbit i (tdim b) = true).
      { rewrite Nat.testbit_eqb, Ei. replace (i' + 2 ^ tdim b)%nat with (i' + 1 * 2 ^ tdim b)%nat by lia.
        rewrite Nat.div_add by (apply Nat.pow_nonzero; lia). rewrite Nat.div_small by assumption. reflexivity. }
      rewrite TB. rewrite (map_ext_in (fun k => if Nat.testbit i k then _ else _) (fun k => if Nat.testbit i' k then x k else 1 - x k)); [ring|].
      intros k Hk. apply in_seq in Hk.
      replace (Nat.testbit i k) with (Nat.testbit i' k); [reflexivity|].
      rewrite Ei, !Nat.testbit_eqb.
      replace (i' + 2 ^ tdim b)%nat with (i' + (2 ^ (tdim b - k)) * 2 ^ k)%nat by (rewrite <- Nat.pow_add_r; do 2 f_equal; lia).
      rewrite Nat.div_add by (apply Nat.pow_nonzero; lia).
      replace (tdim b - k)%nat with (S (tdim b - k - 1)) by lia. cbn [Nat.pow].
      rewrite Nat.mul_comm, (Nat.mul_comm 2), <- Nat.mul_assoc || idtac.
      f_equal. rewrite <- (Nat.mod_add (i' / 2 ^ k) (2 ^ (tdim b - k - 1)) 2) by lia. f_equal. lia.
  - cbn [cubT] in H. subst b. cbn in *. destruct i as [|[|]]; cbn; try ring. lia.
Qed.
(** ** derivative *)
Lemma shapeC_ext tol T : forall x y i, (forall k, (k < tdim T)%nat -> x k = y k) -> shapeC tol T x i = shapeC tol T y i.
Proof.
  induction T as [|b IH|b IH]; intros x y i E; cbn [shapeC tdim] in *; [reflexivity| |].
  - rewrite (E (tdim b)) by lia. rewrite !(IH x y) by auto. reflexivity.
  - rewrite (E (tdim b)) by lia. rewrite (IH (fun k => x k / _) (fun k => y k / (1 - y (tdim b)))); [reflexivity|].
    intros k Hk. now rewrite E by lia.
Qed.
Lemma dshapeC_ext tol T : forall x y j i, (forall k, (k < tdim T)%nat -> x k = y k) -> dshapeC tol T x j i = dshapeC tol T y j i.
Proof.
  induction T as [|b IH|b IH]; intros x y j i E; cbn [dshapeC tdim] in *; [reflexivity| |].
  - rewrite (E (tdim b)) by lia. rewrite !(IH x y) by auto. rewrite !(shapeC_ext tol b x y) by auto. reflexivity.
  - assert (P : forall k, (k < tdim b)%nat -> proj tol (x (tdim b)) x k = proj tol (y (tdim b)) y k).
    { intros k Hk. unfold proj. now rewrite !E by lia. }
    rewrite (IH _ _ j i P), (shapeC_ext tol b _ _ i P). rewrite (rsum_ext (tdim b) _ (fun l => proj tol (y (tdim b)) y l * dshapeC tol b (proj tol (y (tdim b)) y) l i)); [reflexivity|].
    intros l Hl. now rewrite (P l Hl), (IH _ _ l i P).
Qed.

Lemma shapeC_derive tol T : 0 <= tol -> forall (c : R -> Vec) (v : Vec) t0,
  (forall k, (k < tdim T)%nat -> is_derive (fun t => c t k) t0 (v k)) -> smoothC tol T (c t0) ->
  forall i, (i < nv T)%nat ->
  is_derive (fun t => shapeC tol T (c t) i) t0 (rsum (tdim T) (fun j => v j * dshapeC tol T (c t0) j i)).
Proof.
  intro Ht. induction T as [|b IH|b IH]; intros c v t0 D S i Hi.
  - cbn. apply @is_derive_const.
  - cbn [smoothC tdim nv] in *.
    assert (IB := IH c v t0 (fun k Hk => D k ltac:(lia)) S). assert (Dn := D (tdim b) ltac:(lia)).
    cbn [shapeC dshapeC]. rewrite rsum_S, Nat.ltb_irrefl. destruct (Nat.ltb_spec i (nv b)) as [I|I].
    + specialize (IB i I).
      rewrite (rsum_ext (tdim b) _ (fun j => (1 - c t0 (tdim b)) * (v j * dshapeC tol b (c t0) j i)))
        by (intros j Hj; rewrite (proj2 (Nat.ltb_lt j (tdim b))) by assumption; ring).
      rewrite rsum_scal.
      evar_last.
      { apply @is_derive_mult; [apply @is_derive_minus; [apply @is_derive_const|exact Dn]|exact IB|intros; apply Rmult_comm]. }
      unfold minus, plus, opp, mult, zero; simpl. ring.
    + specialize (IB (i - nv b)%nat ltac:(lia)).
      rewrite (rsum_ext (tdim b) _ (fun j => c t0 (tdim b) * (v j * dshapeC tol b (c t0) j (i - nv b))))
        by (intros j Hj; rewrite (proj2 (Nat.ltb_lt j (tdim b))) by assumption; ring).
      rewrite rsum_scal.
      evar_last.
      { apply @is_derive_mult; [exact Dn|exact IB|intros; apply Rmult_comm]. }
      unfold plus, mult; simpl. ring.
  - cbn [smoothC tdim nv] in *. destruct S as [S1 S2].
    assert (Dn := D (tdim b) ltac:(lia)). set (n := tdim b) in *.
    assert (N0 : 1 - c t0 n <> 0) by (intro E; rewrite E, Rabs_R0 in S1; lra).
    cbn [shapeC dshapeC]. rewrite rsum_S. fold n. rewrite Nat.ltb_irrefl.
    assert (PX : proj tol (c t0 n) (c t0) = (fun k => c t0 k / (1 - c t0 n))).
    { apply functional_extensionality. intro k. unfold proj. now rewrite (proj2 (away_true tol _ Ht) S1). }
    rewrite PX. set (X := fun k => c t0 k / (1 - c t0 n)) in *.
    destruct (Nat.ltb_spec i (nv b)) as [I|I].
    + assert (DQ : forall k, (k < n)%nat -> is_derive (fun t => c t k / (1 - c t n)) t0 (v k / (1 - c t0 n) + c t0 k * v n / ((1 - c t0 n) * (1 - c t0 n)))).
      { intros k Hk. specialize (D k ltac:(lia)). evar_last.
        - apply is_derive_div; [exact D|apply @is_derive_minus; [apply @is_derive_const|exact Dn]|exact N0].
        - unfold minus, plus, opp, zero; simpl. field. exact N0. }
      assert (IB := IH (fun t k => c t k / (1 - c t n)) _ t0 DQ S2 i I). cbn beta in IB. fold X in IB.
      apply (is_derive_ext_loc (fun t => (1 - c t n) * shapeC tol b (fun k => c t k / (1 - c t n)) i)).
      { assert (CT : continuous (fun t => Rabs (1 - c t n)) t0).
        { apply (continuous_comp (fun t => 1 - c t n) Rabs).
          - apply (ex_derive_continuous (fun t => 1 - c t n)). eexists. apply @is_derive_minus; [apply @is_derive_const|exact Dn].
          - apply continuous_Rabs. }
        assert (L : locally (Rabs (1 - c t0 n)) (fun z => tol < z)) by (apply open_gt; exact S1).
        generalize (CT _ L). unfold filtermap. apply filter_imp. intros t Htt.
        now rewrite (proj2 (away_true tol _ Ht) Htt). }
      evar_last.
      { apply @is_derive_mult; [apply @is_derive_minus; [apply @is_derive_const|exact Dn]|exact IB|intros; apply Rmult_comm]. }
      match goal with |- ?a = _ => change a with ((0 + - v n) * shapeC tol b X i + (1 - c t0 n) *
        rsum n (fun j => (v j / (1 - c t0 n) + c t0 j * v n / ((1 - c t0 n) * (1 - c t0 n))) * dshapeC tol b X j i)) end.
      rewrite (rsum_ext n (fun j => v j * _) (fun j => v j * dshapeC tol b X j i))
        by (intros j Hj; rewrite (proj2 (Nat.ltb_lt j n)) by assumption; reflexivity).
      rewrite (rsum_ext n (fun j => (v j / _ + _) * _) (fun j => / (1 - c t0 n) * (v j * dshapeC tol b X j i) + v n / (1 - c t0 n) * (X j * dshapeC tol b X j i)))
        by (intros j Hj; unfold X; field; exact N0).
      rewrite rsum_plus, !rsum_scal. change (fun l => c t0 l / (1 - c t0 n) * dshapeC tol b X l i) with (fun l => X l * dshapeC tol b X l i).
      field. exact N0.
    + rewrite rsum_0; [rewrite Rplus_0_l, Rmult_1_r; exact Dn|].
      intros j Hj. rewrite (proj2 (Nat.ltb_lt j n)) by assumption. ring.
Qed.
