(** MultiLinearGeometry: the recursions compute corner combinations with explicit weights. *)
From Coq Require Import PeanoNat NArith Lia Bool List Reals Lra FunctionalExtensionality.
From Verif Require Import M_Type M_RefTopo M_RefGeo M_Matrix M_MultiLinear S_Topo S_MultiLinear P_Type P_RefTopo P_RSum P_Matrix P_Matrix2.
Import ListNotations.
Local Open Scope R_scope.

(** the topology as the code reads it: the lowest bit is ignored *)
Definition lt (id : N) (dim : nat) : Topo := topo_of (N.lor id 1) dim.
Lemma tdim_topo id : forall dim, tdim (topo_of id dim) = dim.
Proof. induction dim; cbn [topo_of]; [reflexivity|]. destruct (N.testbit id (N.of_nat dim)); cbn [tdim]; lia. Qed.
Lemma isPrism_level id mydim d : (S d <= mydim)%nat -> isPrism id mydim (mydim - S d) = N.testbit (N.lor id 1) (N.of_nat d).
Proof.
  intro H. assert (E : isPrism id mydim (mydim - S d) = isPrism id (S d) 0).
  { unfold isPrism. do 4 f_equal. lia. }
  rewrite E, isPrism_bit, N.lor_spec. f_equal. destruct d; [reflexivity|].
  symmetry. apply N.bits_above_log2. simpl. lia.
Qed.

Lemma nth_skipn {A} (l : list A) d : forall n i, nth i (skipn n l) d = nth (n + i) l d.
Proof.
  intro n. revert l. induction n; intros l i; [reflexivity|]. destruct l; [now destruct i|]. cbn [skipn Nat.add nth]. apply IHn.
Qed.
Lemma skipn_cons {A} (l : list A) d : forall n, (n < length l)%nat -> skipn n l = nth n l d :: skipn (S n) l.
Proof.
  intros n. revert l. induction n; intros [|a l] H; simpl in H; try lia; [reflexivity|]. cbn [skipn nth]. apply IHn. lia.
Qed.
Lemma skipn_add {A} (l : list A) : forall n m, skipn m (skipn n l) = skipn (n + m) l.
Proof. intro n. revert l. induction n; intros [|a l] m; simpl; auto. now rewrite skipn_nil. Qed.

(** weights used by the code *)
Definition proj (tol xn : R) (x : Vec) : Vec := fun k => if away tol (1 - xn) then x k / (1 - xn) else 0.
Fixpoint shapeC (tol : R) (T : Topo) (x : Vec) (i : nat) : R :=
  match T with
  | Pt => 1
  | Pri b => if Nat.ltb i (nv b) then (1 - x (tdim b)) * shapeC tol b x i else x (tdim b) * shapeC tol b x (i - nv b)
  | Pyr b => if Nat.ltb i (nv b)
             then (if away tol (1 - x (tdim b)) then (1 - x (tdim b)) * shapeC tol b (fun k => x k / (1 - x (tdim b))) i else 0)
             else x (tdim b)
  end.
Fixpoint dshapeC (tol : R) (T : Topo) (x : Vec) (j i : nat) : R :=
  match T with
  | Pt => 0
  | Pri b =>
      if Nat.ltb j (tdim b) then
        if Nat.ltb i (nv b) then (1 - x (tdim b)) * dshapeC tol b x j i else x (tdim b) * dshapeC tol b x j (i - nv b)
      else if Nat.ltb i (nv b) then - shapeC tol b x i else shapeC tol b x (i - nv b)
  | Pyr b =>
      let x' := proj tol (x (tdim b)) x in
      if Nat.ltb j (tdim b) then (if Nat.ltb i (nv b) then dshapeC tol b x' j i else 0)
      else if Nat.ltb i (nv b) then - shapeC tol b x' i + rsum (tdim b) (fun l => x' l * dshapeC tol b x' l i) else 1
  end.

Lemma nv_pos T : (0 < nv T)%nat.
Proof. induction T; simpl; lia. Qed.

Lemma wsum_Pri tol b x (cs : nat -> Vec) k :
  rsum (nv (Pri b)) (fun i => shapeC tol (Pri b) x i * cs i k) =
  (1 - x (tdim b)) * rsum (nv b) (fun i => shapeC tol b x i * cs i k) + x (tdim b) * rsum (nv b) (fun i => shapeC tol b x i * cs (nv b + i)%nat k).
Proof.
  cbn [nv shapeC]. rewrite rsum_app. f_equal; rewrite <- rsum_scal; apply rsum_ext; intros i Hi.
  - rewrite (proj2 (Nat.ltb_lt i (nv b))) by assumption. ring.
  - rewrite (proj2 (Nat.ltb_ge (nv b + i) (nv b))) by lia. replace (nv b + i - nv b)%nat with i by lia. ring.
Qed.
Lemma wsum_Pyr tol b x (cs : nat -> Vec) k :
  rsum (nv (Pyr b)) (fun i => shapeC tol (Pyr b) x i * cs i k) =
  (if away tol (1 - x (tdim b)) then (1 - x (tdim b)) * rsum (nv b) (fun i => shapeC tol b (fun k => x k / (1 - x (tdim b))) i * cs i k) else 0)
  + x (tdim b) * cs (nv b) k.
Proof.
  cbn [nv shapeC]. rewrite rsum_app. f_equal.
  - destruct (away tol (1 - x (tdim b))).
    + rewrite <- rsum_scal. apply rsum_ext. intros i Hi. rewrite (proj2 (Nat.ltb_lt i (nv b))) by assumption. ring.
    + apply rsum_0. intros i Hi. rewrite (proj2 (Nat.ltb_lt i (nv b))) by assumption. ring.
  - cbn [rsum]. rewrite Nat.add_0_r, Nat.ltb_irrefl. ring.
Qed.

Section Spec.
Variables (cdim : nat) (tol : R) (tid : N) (mydim : nat).
Notation T := (lt tid).

Definition comb (w : nat -> R) (n : nat) (cit : list Vec) (k : nat) : R := rsum n (fun i => w i * nth i cit vzero k).

Lemma glob_spec : forall dim add cit df x rf y, (dim <= mydim)%nat -> (nv (T dim) <= length cit)%nat ->
  ml_glob cdim tol tid mydim dim add cit df x rf y =
  Some (skipn (nv (T dim)) cit,
        vset cdim (fun k => (if add then y k else 0) + rf * comb (shapeC tol (T dim) (fun k => df * x k)) (nv (T dim)) cit k) y).
Proof.
  induction dim; intros add cit df x rf y Hd Hl.
  - cbn [ml_glob nv] in *. change (T 0) with Pt in *. cbn [nv] in *. destruct cit as [|o cit]; [simpl in Hl; lia|].
    cbn [skipn]. do 2 f_equal. apply functional_extensionality. intro k. unfold vset. destruct (Nat.ltb k cdim); [|reflexivity].
    unfold comb. cbn [rsum shapeC nth]. destruct add; ring.
  - unfold lt in *. cbn [topo_of] in *. cbn [ml_glob]. rewrite isPrism_level by assumption.
    destruct (N.testbit (N.lor tid 1) (N.of_nat dim)).
    + cbn [nv] in *. rewrite IHdim by lia. cbn [obind]. rewrite IHdim by (rewrite ?skipn_length; lia).
      rewrite skipn_add. do 2 f_equal. apply functional_extensionality. intro k. unfold vset.
      destruct (Nat.ltb_spec k cdim) as [Hk|Hk]; [|reflexivity].
      change (nv (topo_of (N.lor tid 1) dim) + nv (topo_of (N.lor tid 1) dim))%nat with (nv (Pri (topo_of (N.lor tid 1) dim))).
      unfold comb. rewrite (wsum_Pri tol _ (fun k => df * x k) (fun i => nth i cit vzero)), tdim_topo.
      rewrite (rsum_ext _ (fun i => _ * nth i (skipn _ cit) vzero k) (fun i => shapeC tol (topo_of (N.lor tid 1) dim) (fun k => df * x k) i * nth (nv (topo_of (N.lor tid 1) dim) + i) cit vzero k))
        by (intros; now rewrite nth_skipn).
      destruct add; ring.
    + cbn [nv] in *.
      assert (SK := skipn_cons cit vzero (nv (topo_of (N.lor tid 1) dim)) ltac:(lia)).
      destruct (away tol (1 - df * x dim)) eqn:AW; rewrite IHdim by lia; cbn [obind]; rewrite SK;
      (replace (S (nv (topo_of (N.lor tid 1) dim))) with (nv (topo_of (N.lor tid 1) dim) + 1)%nat by lia);
      do 2 f_equal; apply functional_extensionality; intro k; unfold vset, vaxpy;
      (destruct (Nat.ltb_spec k cdim) as [Hk|Hk]; [|reflexivity]);
      change (nv (topo_of (N.lor tid 1) dim) + 1)%nat with (nv (Pyr (topo_of (N.lor tid 1) dim)));
      unfold comb; rewrite (wsum_Pyr tol _ (fun k => df * x k) (fun i => nth i cit vzero)), tdim_topo, AW.
      * replace (fun k0 => df / (1 - df * x dim) * x k0) with (fun k0 => df * x k0 / (1 - df * x dim))
          by (apply functional_extensionality; intro; unfold Rdiv; ring).
        destruct add; ring.
      * destruct add; ring.
Qed.

(** ** Jacobian *)
Definition jtval (add : bool) (n : nat) (w : nat -> nat -> R) (m : nat) (cit : list Vec) (rf : R) (jt : Mat) : Mat :=
  fun j k => if andb (Nat.ltb j n) (Nat.ltb k cdim) then (if add then jt j k else 0) + rf * comb (w j) m cit k else jt j k.

Lemma loop_add d (s : nat -> R) (J jt : Mat) : forall n, (n <= d)%nat -> forall j k,
  forN n (fun j jt => let jt := mrow jt j (vaxpy cdim 1 (J j) (jt j)) in mrow jt d (vaxpy cdim (s j) (J j) (jt d))) jt j k =
  if Nat.ltb k cdim then
    if Nat.ltb j n then jt j k + J j k
    else if Nat.eqb j d then jt j k + rsum n (fun l => s l * J l k) else jt j k
  else jt j k.
Proof.
  induction n; intros Hn j k.
  - cbn [forN rsum]. destruct (Nat.ltb k cdim); [|reflexivity]. change (Nat.ltb j 0) with false. cbn iota.
    destruct (Nat.eqb j d); ring.
  - cbn [forN rsum]. specialize (IHn ltac:(lia)). set (F := forN n _ jt) in *. clearbody F. cbv zeta. unfold mrow, vaxpy.
    destruct (Nat.eqb_spec j d).
    + subst. rewrite (proj2 (Nat.eqb_neq d n)), IHn, Nat.eqb_refl by lia. rewrite (proj2 (Nat.ltb_ge d n)), (proj2 (Nat.ltb_ge d (S n))) by lia.
      destruct (Nat.ltb k cdim); [ring|reflexivity].
    + destruct (Nat.eqb_spec j n).
      * subst. rewrite IHn. rewrite Nat.ltb_irrefl, (proj2 (Nat.ltb_lt n (S n))), (proj2 (Nat.eqb_neq n d)) by lia.
        destruct (Nat.ltb k cdim); [ring|reflexivity].
      * rewrite IHn. destruct (Nat.ltb k cdim); [|reflexivity]. rewrite (proj2 (Nat.eqb_neq j d)) by assumption.
        destruct (Nat.ltb_spec j n), (Nat.ltb_spec j (S n)); try lia; reflexivity.
Qed.
Lemma loop_set d (s : nat -> R) (jt : Mat) : forall n, (n <= d)%nat -> forall j k,
  forN n (fun j jt => mrow jt d (vaxpy cdim (s j) (jt j) (jt d))) jt j k =
  if andb (Nat.ltb k cdim) (Nat.eqb j d) then jt j k + rsum n (fun l => s l * jt l k) else jt j k.
Proof.
  induction n; intros Hn j k.
  - cbn [forN rsum]. destruct (Nat.ltb k cdim && Nat.eqb j d)%bool; ring.
  - cbn [forN rsum]. specialize (IHn ltac:(lia)). set (F := forN n _ jt) in *. clearbody F. unfold mrow, vaxpy.
    destruct (Nat.eqb_spec j d).
    + subst. rewrite !IHn, Nat.eqb_refl, (proj2 (Nat.eqb_neq n d)), andb_false_r, andb_true_r by lia.
      destruct (Nat.ltb k cdim); [ring|reflexivity].
    + rewrite IHn, (proj2 (Nat.eqb_neq j d)) by assumption. rewrite !andb_false_r. reflexivity.
Qed.

Lemma dsum_Pri b x j (cs : nat -> Vec) k : (j < tdim b)%nat ->
  rsum (nv (Pri b)) (fun i => dshapeC tol (Pri b) x j i * cs i k) =
  (1 - x (tdim b)) * rsum (nv b) (fun i => dshapeC tol b x j i * cs i k) + x (tdim b) * rsum (nv b) (fun i => dshapeC tol b x j i * cs (nv b + i)%nat k).
Proof.
  intro Hj. cbn [nv dshapeC]. rewrite (proj2 (Nat.ltb_lt j (tdim b))) by assumption.
  rewrite rsum_app. f_equal; rewrite <- rsum_scal; apply rsum_ext; intros i Hi.
  - rewrite (proj2 (Nat.ltb_lt i (nv b))) by assumption. ring.
  - rewrite (proj2 (Nat.ltb_ge (nv b + i) (nv b))) by lia. replace (nv b + i - nv b)%nat with i by lia. ring.
Qed.
Lemma dsum_Pri_last b x (cs : nat -> Vec) k :
  rsum (nv (Pri b)) (fun i => dshapeC tol (Pri b) x (tdim b) i * cs i k) =
  - rsum (nv b) (fun i => shapeC tol b x i * cs i k) + rsum (nv b) (fun i => shapeC tol b x i * cs (nv b + i)%nat k).
Proof.
  cbn [nv dshapeC]. rewrite Nat.ltb_irrefl. rewrite rsum_app. f_equal.
  - replace (- rsum (nv b) (fun i => shapeC tol b x i * cs i k)) with (-1 * rsum (nv b) (fun i => shapeC tol b x i * cs i k)) by ring.
    rewrite <- rsum_scal. apply rsum_ext. intros i Hi. rewrite (proj2 (Nat.ltb_lt i (nv b))) by assumption. ring.
  - apply rsum_ext. intros i Hi. rewrite (proj2 (Nat.ltb_ge (nv b + i) (nv b))) by lia. replace (nv b + i - nv b)%nat with i by lia. ring.
Qed.
Lemma dsum_Pyr b x j (cs : nat -> Vec) k : (j < tdim b)%nat ->
  rsum (nv (Pyr b)) (fun i => dshapeC tol (Pyr b) x j i * cs i k) =
  rsum (nv b) (fun i => dshapeC tol b (proj tol (x (tdim b)) x) j i * cs i k).
Proof.
  intro Hj. cbn [nv dshapeC]. rewrite (proj2 (Nat.ltb_lt j (tdim b))) by assumption.
  rewrite rsum_app. cbn [rsum]. rewrite Nat.add_0_r, Nat.ltb_irrefl, Rmult_0_l, !Rplus_0_r. apply rsum_ext. intros i Hi.
  rewrite (proj2 (Nat.ltb_lt i (nv b))) by assumption. ring.
Qed.
Lemma dsum_Pyr_last b x (cs : nat -> Vec) k :
  rsum (nv (Pyr b)) (fun i => dshapeC tol (Pyr b) x (tdim b) i * cs i k) =
  - rsum (nv b) (fun i => shapeC tol b (proj tol (x (tdim b)) x) i * cs i k)
  + rsum (tdim b) (fun l => proj tol (x (tdim b)) x l * rsum (nv b) (fun i => dshapeC tol b (proj tol (x (tdim b)) x) l i * cs i k))
  + cs (nv b) k.
Proof.
  cbn [nv dshapeC]. rewrite Nat.ltb_irrefl. rewrite rsum_app. cbn [rsum]. rewrite Nat.add_0_r, Nat.ltb_irrefl, Rmult_1_l, Rplus_0_l. f_equal.
  set (x' := proj tol (x (tdim b)) x).
  rewrite (rsum_ext (nv b) _ (fun i => -1 * (shapeC tol b x' i * cs i k) + rsum (tdim b) (fun l => x' l * (dshapeC tol b x' l i * cs i k)))).
  - rewrite rsum_plus, rsum_scal, rsum_swap. f_equal; [ring|]. apply rsum_ext. intros l Hl. now rewrite rsum_scal.
  - intros i Hi. rewrite (proj2 (Nat.ltb_lt i (nv b))) by assumption. rewrite Rmult_plus_distr_r, <- rsum_scal_r. f_equal; [ring|].
    apply rsum_ext. intros; ring.
Qed.

Lemma jt_spec : forall jk dim add cit df x rf jt, (dim <= mydim)%nat -> (nv (T dim) <= length cit)%nat ->
  ml_jt cdim tol tid mydim jk dim add cit df x rf jt =
  Some (skipn (nv (T dim)) cit, jtval add dim (dshapeC tol (T dim) (fun k => df * x k)) (nv (T dim)) cit rf jt).
Proof.
  intro jk. induction dim; intros add cit df x rf jt Hd Hl.
  - cbn [ml_jt]. change (T 0) with Pt in *. cbn [nv] in *. destruct cit as [|o cit]; [simpl in Hl; lia|]. reflexivity.
  - cbn [ml_jt]. rewrite isPrism_level by assumption.
    assert (TS : T (S dim) = if N.testbit (N.lor tid 1) (N.of_nat dim) then Pri (T dim) else Pyr (T dim)) by reflexivity.
    assert (TD : tdim (T dim) = dim) by apply tdim_topo.
    rewrite TS in *. destruct (N.testbit (N.lor tid 1) (N.of_nat dim)).
    + cbn [nv] in Hl. rewrite IHdim by lia. cbn [obind]. rewrite IHdim by (rewrite ?skipn_length; lia). cbn [obind].
      rewrite glob_spec by lia. cbn [obind]. rewrite glob_spec by (rewrite ?skipn_length; lia). cbn [obind].
      rewrite skipn_add. change (nv (Pri (T dim))) with (nv (T dim) + nv (T dim))%nat. do 2 f_equal.
      apply functional_extensionality; intro j; apply functional_extensionality; intro k.
      change (nv (T dim) + nv (T dim))%nat with (nv (Pri (T dim))).
      unfold mrow, jtval, comb, vset. destruct (Nat.ltb k cdim) eqn:Hk.
      2:{ rewrite !andb_false_r. destruct (Nat.eqb_spec j dim); [subst j|]; rewrite ?Hk, ?andb_false_r; reflexivity. }
      rewrite !andb_true_r. destruct (Nat.eqb_spec j dim).
      * subst j. rewrite ?Hk, ?andb_true_r, Nat.ltb_irrefl, (proj2 (Nat.ltb_lt dim (S dim))) by lia.
        assert (Q := dsum_Pri_last (T dim) (fun k => df * x k) (fun i => nth i cit vzero) k). rewrite TD in Q. rewrite Q.
        rewrite (rsum_ext _ (fun i => _ * nth i (skipn _ cit) vzero k) (fun i => shapeC tol (T dim) (fun k => df * x k) i * nth (nv (T dim) + i) cit vzero k))
          by (intros; now rewrite nth_skipn).
        destruct add; ring.
      * destruct (Nat.ltb_spec j dim) as [L|L].
        2:{ rewrite (proj2 (Nat.ltb_ge j (S dim))) by lia. reflexivity. }
        rewrite (proj2 (Nat.ltb_lt j (S dim))) by lia.
        assert (Q := dsum_Pri (T dim) (fun k => df * x k) j (fun i => nth i cit vzero) k). rewrite TD in Q. rewrite (Q L).
        rewrite (rsum_ext _ (fun i => _ * nth i (skipn _ cit) vzero k) (fun i => dshapeC tol (T dim) (fun k => df * x k) j i * nth (nv (T dim) + i) cit vzero k))
          by (intros; now rewrite nth_skipn).
        rewrite ?Hk, ?andb_true_r; destruct add; ring.
    + cbn [nv] in Hl. set (s := if away tol (1 - df * x dim) then df / (1 - df * x dim) else 0).
      set (P := proj tol (df * x dim) (fun k => df * x k)).
      assert (PX : (fun k => s * x k) = P).
      { unfold P. apply functional_extensionality. intro k. unfold s, proj. destruct (away tol (1 - df * x dim)); unfold Rdiv; ring. }
      rewrite glob_spec by lia. cbn [obind]. rewrite (skipn_cons cit vzero) by lia.
      change (nv (Pyr (T dim))) with (nv (T dim) + 1)%nat. rewrite Nat.add_1_r.
      assert (QL := dsum_Pyr_last (T dim) (fun k => df * x k) (fun i => nth i cit vzero)).
      assert (QJ := fun j k => dsum_Pyr (T dim) (fun k => df * x k) j (fun i => nth i cit vzero) k).
      rewrite TD in QL, QJ. change (nv (Pyr (T dim))) with (nv (T dim) + 1)%nat in QL, QJ. rewrite Nat.add_1_r in QL, QJ.
      fold P in QL, QJ. rewrite PX.
      assert (Sx : forall l, s * x l = P l) by (intro l; now rewrite <- PX).
      destruct add; rewrite IHdim by lia; cbn [obind]; rewrite PX; do 2 f_equal;
      apply functional_extensionality; intro j; apply functional_extensionality; intro k.
      * rewrite (loop_add dim (fun j => s * x j) _ _ dim (le_n dim)). unfold jtval.
        destruct (Nat.ltb k cdim) eqn:Hk.
        2:{ rewrite andb_false_r. unfold mrow, vaxpy, vset. destruct (Nat.eqb_spec j dim); [subst j|]; rewrite ?Hk; reflexivity. }
        rewrite !andb_true_r. destruct (Nat.ltb_spec j dim) as [L|L].
        -- rewrite (proj2 (Nat.ltb_lt j (S dim))) by lia. unfold mrow. rewrite (proj2 (Nat.eqb_neq j dim)) by lia.
           unfold comb. rewrite QJ by assumption. ring.
        -- destruct (Nat.eqb_spec j dim).
           ++ subst j. rewrite (proj2 (Nat.ltb_lt dim (S dim))) by lia. unfold mrow. rewrite Nat.eqb_refl. unfold vaxpy, vset. rewrite Hk.
              unfold comb. rewrite QL.
              rewrite (rsum_ext dim _ (fun l => rf * (P l * rsum (nv (T dim)) (fun i => dshapeC tol (T dim) P l i * nth i cit vzero k)))).
              ** rewrite rsum_scal. ring.
              ** intros l Hl'. rewrite Sx, (proj2 (Nat.ltb_lt l dim)) by assumption. cbn [andb]. ring.
           ++ rewrite (proj2 (Nat.ltb_ge j (S dim))) by lia. unfold mrow. now rewrite (proj2 (Nat.eqb_neq j dim)) by assumption.
      * rewrite (loop_set dim (fun j => s * x j) _ dim (le_n dim)). unfold jtval.
        destruct (Nat.ltb k cdim) eqn:Hk.
        2:{ rewrite !andb_false_r. cbn [andb]. unfold mrow, vaxpy, vset. destruct (Nat.eqb_spec j dim); [subst j|]; rewrite ?Hk; reflexivity. }
        rewrite !andb_true_r. cbn [andb]. destruct (Nat.eqb_spec j dim).
        -- subst j. rewrite Nat.ltb_irrefl, (proj2 (Nat.ltb_lt dim (S dim))) by lia. unfold mrow. rewrite Nat.eqb_refl. unfold vaxpy, vset. rewrite Hk.
           unfold comb. rewrite QL.
           rewrite (rsum_ext dim _ (fun l => rf * (P l * rsum (nv (T dim)) (fun i => dshapeC tol (T dim) P l i * nth i cit vzero k)))).
           ++ rewrite rsum_scal. ring.
           ++ intros l Hl'. rewrite Sx, (proj2 (Nat.ltb_lt l dim)) by assumption. cbn [andb]. ring.
        -- destruct (Nat.ltb_spec j dim) as [L|L].
           ++ rewrite (proj2 (Nat.ltb_lt j (S dim))) by lia. unfold comb. rewrite QJ by assumption. ring.
           ++ rewrite (proj2 (Nat.ltb_ge j (S dim))) by lia. unfold mrow. now rewrite (proj2 (Nat.eqb_neq j dim)) by assumption.
Qed.
End Spec.
