(** The length of the integration outer normal is the integration element of the face. *)
From Coq Require Import NArith PeanoNat Bool List Lia Reals Lra FunctionalExtensionality.
From Verif Require Import M_Type M_RefTopo M_RefGeo P_Type P_Type2 S_Topo P_Topo P_RefTopo P_RefTopo2 P_RefTopo3 P_RSum P_RefGeo P_RefGeo2 P_RefGeo3 P_Det.
Import ListNotations.
Local Open Scope R_scope.

Lemma det_aug m (J : Mat) (w v : Vec) : (forall i, (i < m)%nat -> J i (S m) = 0) -> w (S m) = 1 ->
  detR (S (S m)) (fun i => if (i <? m)%nat then J i else if (i =? m)%nat then w else v)
  = - detR (S m) (fun i => if (i <? m)%nat then J i else fun j => v j - v (S m) * w j).
Proof.
  intros HJ Hw.
  set (A := fun i => if (i <? m)%nat then J i else if (i =? m)%nat then w else v).
  rewrite <- (detR_add A (i1 := S m) (i2 := m) (- v (S m))) by lia.
  set (B := fun i j => if (i =? S m)%nat then A i j + - v (S m) * A m j else A i j).
  rewrite <- (Ropp_involutive (detR _ B)).
  rewrite <- (detR_swap B (i1 := m) (i2 := S m)) by lia. f_equal.
  assert (Am : A m = w).
  { unfold A. destruct (Nat.ltb_spec m m); [lia|]. now rewrite Nat.eqb_refl. }
  assert (ASm : A (S m) = v).
  { unfold A. destruct (Nat.ltb_spec (S m) m); [lia|]. destruct (Nat.eqb_spec (S m) m); [lia|reflexivity]. }
  assert (BSm : forall j, B (S m) j = v j - v (S m) * w j).
  { intros j. unfold B. rewrite Nat.eqb_refl, ASm, Am. lra. }
  assert (Bi : forall i, (i <= m)%nat -> B i = A i).
  { intros i Hi. apply functional_extensionality. intros j. unfold B. destruct (Nat.eqb_spec i (S m)); [lia|reflexivity]. }
  rewrite detR_lastcol.
  - destruct (Nat.eqb_spec (S m) m); [lia|]. rewrite Nat.eqb_refl, (Bi m), Am, Hw, Rmult_1_r by lia.
    apply detR_ext. intros i j Hi Hj. destruct (Nat.eqb_spec i m) as [->|E].
    + rewrite BSm. destruct (Nat.ltb_spec m m); [lia|reflexivity].
    + destruct (Nat.eqb_spec i (S m)); [lia|]. rewrite Bi by lia. unfold A.
      destruct (Nat.ltb_spec i m); [reflexivity|lia].
  - intros i Hi. destruct (Nat.eqb_spec i m) as [->|E].
    + rewrite BSm, Hw. lra.
    + destruct (Nat.eqb_spec i (S m)); [lia|]. rewrite Bi by lia. unfold A.
      destruct (Nat.ltb_spec i m); [apply HJ; lia|lia].
Qed.

Lemma detR_midentity n : detR n (midentity n) = 1.
Proof.
  induction n as [|n IH]; [apply detR_0|]. rewrite detR_lastcol.
  - rewrite (detR_ext (B := midentity n)).
    + rewrite IH. unfold midentity. rewrite Nat.eqb_refl. destruct (Nat.ltb_spec n (S n)); [simpl; lra|lia].
    + intros i j Hi Hj. unfold midentity. destruct (Nat.ltb_spec i n), (Nat.ltb_spec i (S n)); auto; lia.
  - intros i Hi. unfold midentity. destruct (Nat.eqb_spec i n); [lia|reflexivity].
Qed.

Definition aug (m : nat) (J : Mat) (v : Vec) : Mat := fun i => if (i <? m)%nat then J i else v.

Lemma detR_aug_id n v : detR (S n) (aug n (midentity n) v) = v n.
Proof.
  rewrite detR_lastcol.
  - rewrite (detR_ext (B := midentity n)).
    + rewrite detR_midentity. unfold aug. destruct (Nat.ltb_spec n n); [lia|]. lra.
    + intros i j Hi Hj. unfold aug. destruct (Nat.ltb_spec i n); [reflexivity|lia].
  - intros i Hi. unfold aug, midentity. destruct (Nat.ltb_spec i n); [|lia]. destruct (Nat.eqb_spec i n); [lia|reflexivity].
Qed.

Lemma fcod0_whole T : forall f, is_face T f -> fcod T f = O -> f = whole T.
Proof.
  intros f Hf H. assert (I : In f (faces T 0)) by (apply in_faces; auto).
  rewrite faces_0 in I. destruct I as [<-|[]]. reflexivity.
Qed.

Lemma det_normal T : forall f, is_face T f -> fcod T f = 1%nat ->
  exists s, (s = 1 \/ s = -1)
    /\ forall v, detR (tdim T) (aug (tdim T - 1) (fjt T f) v) = s * dot (tdim T) (nrm T f) v.
Proof.
  induction T as [|b IH|b IH]; intros f Hf Hc; destruct f; cbn [is_face] in Hf; try contradiction;
    cbn [fcod] in Hc; cbn [nrm tdim fjt]; try discriminate; rewrite ?Nat.sub_succ, ?Nat.sub_0_r.
  - destruct (IH f Hf Hc) as (s & Hs & H).
    assert (TF : tdim (ftype b f) = (tdim b - 1)%nat) by (rewrite tdim_ftype, Hc by assumption; reflexivity).
    pose proof (fcod_le b f Hf). destruct (tdim b) as [|m] eqn:Eb; [lia|].
    rewrite Nat.sub_succ, Nat.sub_0_r in *.
    exists (- s). split; [lra|]. intros v.
    rewrite (detR_ext (B := fun i => if (i <? m)%nat then fjt b f i else if (i =? m)%nat then upd (fjt b f m) (S m) 1 else v)).
    + rewrite det_aug.
      * pose proof (H v) as Hv. rewrite <- TF in *.
        rewrite (detR_ext (B := aug (tdim (ftype b f)) (fjt b f) v)).
        -- rewrite Hv. unfold dot. rewrite (rsum_S (S _)), (nrm_support b f (S _)) by lia. lra.
        -- intros i j Hi Hj. unfold aug. destruct (Nat.ltb_spec i (tdim (ftype b f))); [reflexivity|].
           rewrite upd_ne, fjt_support by lia. lra.
      * intros i Hi. apply fjt_support. lia.
      * apply upd_eq.
    + intros i j Hi Hj. unfold aug. rewrite TF.
      destruct (Nat.ltb_spec i (S m)), (Nat.ltb_spec i m), (Nat.eqb_spec i m); try lia; try reflexivity.
      * rewrite mupd_ne by lia. reflexivity.
      * subst i. now rewrite mupd_row.
  - assert (f = whole b) as -> by (apply fcod0_whole; [assumption|lia]). rewrite fjt_whole.
    exists (-1). split; [lra|]. intros v. rewrite detR_aug_id, dot_upd by (auto; reflexivity). rewrite dot_vzero. lra.
  - assert (f = whole b) as -> by (apply fcod0_whole; [assumption|lia]). rewrite fjt_whole.
    exists 1. split; [lra|]. intros v. rewrite detR_aug_id, dot_upd by (auto; reflexivity). rewrite dot_vzero. lra.
  - assert (f = whole b) as -> by (apply fcod0_whole; [assumption|lia]). rewrite fjt_whole.
    exists (-1). split; [lra|]. intros v. rewrite detR_aug_id, dot_upd by (auto; reflexivity). rewrite dot_vzero. lra.
  - destruct (IH f Hf Hc) as (s & Hs & H).
    assert (TF : tdim (ftype b f) = (tdim b - 1)%nat) by (rewrite tdim_ftype, Hc by assumption; reflexivity).
    pose proof (fcod_le b f Hf). destruct (tdim b) as [|m] eqn:Eb; [lia|].
    rewrite Nat.sub_succ, Nat.sub_0_r in *.
    exists (- s). split; [lra|]. intros v.
    set (w := fun k => if (k =? S m)%nat then 1 else - forg b f k).
    rewrite (detR_ext (B := fun i => if (i <? m)%nat then fjt b f i else if (i =? m)%nat then w else v)).
    + rewrite det_aug.
      * rewrite (detR_ext (B := aug m (fjt b f) (fun k => v k + v (S m) * forg b f k))).
        -- rewrite H. rewrite dot_upd by (try lia; apply nrm_support; lia).
           rewrite dot_plus_r.
           rewrite (dot_trunc (S m) (S (S m)) (nrm b f) v) by (try lia; intros k Hk; apply nrm_support; lia).
           replace (dot (S m) (nrm b f) (fun k => v (S m) * forg b f k)) with (v (S m) * dot (S m) (nrm b f) (forg b f)); [lra|].
           unfold dot. rewrite <- rsum_scal. apply rsum_ext. intros; lra.
        -- intros i j Hi Hj. unfold aug. destruct (Nat.ltb_spec i m); [reflexivity|].
           unfold w. destruct (Nat.eqb_spec j (S m)); [lia|]. lra.
      * intros i Hi. apply fjt_support. lia.
      * unfold w. now rewrite Nat.eqb_refl.
    + intros i j Hi Hj. unfold aug. rewrite TF.
      destruct (Nat.ltb_spec i (S m)), (Nat.ltb_spec i m), (Nat.eqb_spec i m); try lia; try reflexivity.
      * rewrite mupd_ne, neg_row_ne by lia. reflexivity.
      * subst i. rewrite mupd_row. unfold w. destruct (Nat.eqb_spec j (S m)) as [->|E]; [apply upd_eq|].
        rewrite upd_ne, neg_row_row by assumption. destruct (Nat.ltb_spec j (S m)); [reflexivity|lia].
  - assert (tdim b = O) as -> by lia. exists 1. split; [lra|]. intros v.
    rewrite (detR_ext (B := aug 0 (midentity 0) v)).
    + rewrite detR_aug_id, dot_upd by (auto; reflexivity). rewrite dot_vzero. lra.
    + intros i j Hi Hj. unfold aug. destruct (Nat.ltb_spec i 0); [lia|reflexivity].
Qed.

Lemma rsum_sq_pos n v : (exists k, (k < n)%nat /\ v k <> 0) -> 0 < dot n v v.
Proof.
  intros (k & Hk & Hv). unfold dot. induction n as [|n IH]; [lia|]. rewrite rsum_S.
  destruct (Nat.eq_dec k n) as [->|E].
  - assert (0 <= rsum n (fun j => v j * v j)) by (apply rsum_nonneg; intros; apply Rle_0_sqr).
    assert (0 < v n * v n) by (apply Rlt_0_sqr; assumption). lra.
  - specialize (IH ltac:(lia)). assert (0 <= v n * v n) by apply Rle_0_sqr. lra.
Qed.

Lemma normal_gram T f : is_face T f -> fcod T f = 1%nat ->
  detR (tdim T - 1) (fun i j => dot (tdim T) (fjt T f i) (fjt T f j)) = dot (tdim T) (nrm T f) (nrm T f).
Proof.
  intros Hf Hc. destruct (det_normal T f Hf Hc) as (s & Hs & H).
  pose proof (fcod_le T f Hf). destruct (tdim T) as [|m] eqn:ET; [lia|].
  rewrite Nat.sub_succ, Nat.sub_0_r in *. set (n := nrm T f) in *.
  specialize (H n). set (A := aug m (fjt T f) n) in *.
  assert (P : 0 < dot (S m) n n).
  { apply rsum_sq_pos. rewrite <- ET. now apply nrm_nonzero. }
  assert (O : forall i, (i < m)%nat -> dot (S m) (fjt T f i) n = 0).
  { intros i Hi. rewrite dot_comm.
    pose proof (nrm_orthogonal T f (fun j => if (j =? i)%nat then 1 else 0) Hf Hc) as E.
    rewrite ET in E. rewrite <- E. apply dot_ext; [reflexivity|]. intros k Hk. unfold Lin.
    rewrite tdim_ftype, Hc, ET by assumption. rewrite Nat.sub_succ, Nat.sub_0_r.
    rewrite (rsum_ext _ _ (fun j => if (j =? i)%nat then fjt T f j k else 0)).
    - now rewrite (rsum_delta m i (fun j => fjt T f j k)).
    - intros j Hj. destruct (Nat.eqb_spec j i); lra. }
  assert (Am : A m = n) by (unfold A, aug; destruct (Nat.ltb_spec m m); [lia|reflexivity]).
  assert (Ai : forall i, (i < m)%nat -> A i = fjt T f i)
    by (intros i Hi; unfold A, aug; destruct (Nat.ltb_spec i m); [reflexivity|lia]).
  pose proof (detR_mul (S m) A (fun i j => A j i)) as M.
  rewrite (detR_tr (S m) A), H in M.
  rewrite detR_lastcol in M.
  - rewrite Am in M. fold (dot (S m) n n) in M.
    rewrite (detR_ext (B := fun i j => dot (S m) (fjt T f i) (fjt T f j))) in M.
    + apply (Rmult_eq_reg_r (dot (S m) n n)); [|lra]. rewrite M. destruct Hs as [->| ->]; ring.
    + intros i j Hi Hj. unfold dot. now rewrite !Ai by assumption.
  - intros i Hi. rewrite Am, Ai by assumption. exact (O i Hi).
Qed.
