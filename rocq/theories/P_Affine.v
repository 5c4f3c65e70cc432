(** Proofs about AffineGeometry. *)
From Coq Require Import PeanoNat NArith Lia Bool List Reals Lra FunctionalExtensionality.
From Verif Require Import M_Type M_RefTopo M_RefGeo M_Matrix M_Affine S_Topo S_RefGeo S_Matrix P_Type P_Topo P_RefTopo P_RefTopo2 P_RSum
  P_RefGeo P_RefGeo2 P_RefGeo3 P_RefGeo4 P_Det P_MxBridge P_Matrix P_Matrix2 P_Matrix3 P_Matrix4 P_Matrix5.
Import ListNotations.
Local Open Scope R_scope.

(** what the constructors establish *)
Record ag_ok (mydim cdim : nat) (g : AffGeo) : Prop := {
  ao_le : (mydim <= cdim)%nat;
  ao_inv : meq mydim mydim (mmul cdim (ag_jt g) (ag_jit g)) mone;
  ao_norm : meq mydim cdim (mmul mydim (mmul cdim (ag_jt g) (mtr (ag_jt g))) (mtr (ag_jit g))) (ag_jt g);
  ao_pos : 0 < ag_intel g;
  ao_sq : ag_intel g * ag_intel g = detR mydim (mmul cdim (ag_jt g) (mtr (ag_jt g))) }.

Lemma affine_from_jacobian_ok mydim cdim id r o jt ret j1 j2 : (mydim <= cdim)%nat -> row_independent mydim cdim jt ->
  exists g, affine_from_jacobian mydim cdim id r o jt ret j1 j2 = Some g /\
    ag_id g = id /\ ag_ref g = r /\ ag_origin g = o /\ ag_jt g = jt /\ ag_ok mydim cdim g.
Proof.
  intros Hm Hr. destruct (rightInvA_spec mydim cdim jt ret j1 j2 Hm Hr) as (d & X & G & E & D1 & D2 & HG & HX).
  unfold affine_from_jacobian. rewrite E. cbn [obind]. eexists. split; [reflexivity|]. cbn.
  repeat split; auto; cbn.
  - eapply meq_trans; [apply meq_mulR, HX|]. now apply right_inverse.
  - eapply meq_trans; [apply meq_mulR|apply (right_normal HG)].
    intros i j Hi Hj. unfold mtr at 1 2. now apply HX.
Qed.
Lemma affine_from_jacobian_inv mydim cdim id r o jt ret j1 j2 g : (mydim <= cdim)%nat -> row_independent mydim cdim jt ->
  affine_from_jacobian mydim cdim id r o jt ret j1 j2 = Some g ->
    ag_id g = id /\ ag_ref g = r /\ ag_origin g = o /\ ag_jt g = jt /\ ag_ok mydim cdim g.
Proof.
  intros Hm Hr E. destruct (affine_from_jacobian_ok mydim cdim id r o jt ret j1 j2 Hm Hr) as (g' & E' & H).
  rewrite E in E'. injection E' as <-. exact H.
Qed.

Lemma ag_local_global mydim cdim g x j : ag_ok mydim cdim g -> (j < mydim)%nat ->
  ag_local cdim g (ag_global mydim g x) j = x j.
Proof.
  intros H Hj. unfold ag_local, ag_global, mtv.
  rewrite (rsum_ext cdim _ (fun k => rsum mydim (fun i => x i * (ag_jt g i k * ag_jit g k j)))).
  - rewrite rsum_swap. rewrite (rsum_ext mydim _ (fun i => if Nat.eqb i j then x i else 0)).
    + now rewrite rsum_delta.
    + intros i Hi. rewrite rsum_scal. change (x i * mmul cdim (ag_jt g) (ag_jit g) i j = if Nat.eqb i j then x i else 0).
      rewrite (ao_inv _ _ _ H) by assumption. unfold mone. destruct (Nat.eqb i j); ring.
  - intros k Hk. replace (ag_origin g k + _ - ag_origin g k) with (rsum mydim (fun i => ag_jt g i k * x i)) by ring.
    rewrite <- rsum_scal. apply rsum_ext. intros. ring.
Qed.

(** normal equations for the local coordinate *)
Lemma ag_local_normal mydim cdim g y : ag_ok mydim cdim g ->
  veq mydim (mvec mydim (mmul cdim (ag_jt g) (mtr (ag_jt g))) (ag_local cdim g y))
            (mvec cdim (ag_jt g) (fun k => y k - ag_origin g k)).
Proof.
  intros H i Hi. change (ag_local cdim g y) with (mvec cdim (mtr (ag_jit g)) (fun k => y k - ag_origin g k)).
  rewrite <- mvec_mmul. unfold mvec. apply rsum_ext. intros k Hk. now rewrite (ao_norm _ _ _ H).
Qed.
Lemma ag_orthogonal mydim cdim g y i : ag_ok mydim cdim g -> (i < mydim)%nat ->
  rsum cdim (fun k => ag_jt g i k * (y k - ag_global mydim g (ag_local cdim g y) k)) = 0.
Proof.
  intros H Hi. assert (N := ag_local_normal mydim cdim g y H i Hi).
  rewrite mvec_mmul in N. unfold mvec at 1 3 in N.
  rewrite (rsum_ext cdim _ (fun k => ag_jt g i k * (y k - ag_origin g k) - ag_jt g i k * mvec mydim (mtr (ag_jt g)) (ag_local cdim g y) k)).
  - rewrite rsum_minus, N. ring.
  - intros k Hk. unfold ag_global, mvec, mtr. ring.
Qed.
Lemma ag_minimal mydim cdim g y z : ag_ok mydim cdim g ->
  rsum cdim (fun k => (ag_global mydim g (ag_local cdim g y) k - y k) * (ag_global mydim g (ag_local cdim g y) k - y k))
  <= rsum cdim (fun k => (ag_global mydim g z k - y k) * (ag_global mydim g z k - y k)).
Proof.
  intros H. assert (N := normal_equations cdim mydim (mtr (ag_jt g)) (fun k => y k - ag_origin g k) (ag_local cdim g y)).
  assert (Q := N (ag_local_normal mydim cdim g y H) z). unfold residual in Q.
  rewrite (rsum_ext cdim (fun i => _ * (mvec mydim (mtr (ag_jt g)) z i - _)) (fun k => (ag_global mydim g z k - y k) * (ag_global mydim g z k - y k))) in Q
    by (intros; unfold mvec, mtr, ag_global; ring).
  eapply Rle_trans; [|exact Q]. apply Req_le, rsum_ext. intros. unfold mvec, mtr, ag_global. ring.
Qed.
Lemma ag_global_local n g y k : ag_ok n n g -> (k < n)%nat -> ag_global n g (ag_local n g y) k = y k.
Proof.
  intros H Hk. assert (I := ao_inv _ _ _ H). apply minv_comm in I.
  unfold ag_global, ag_local, mtv.
  rewrite (rsum_ext n _ (fun i => rsum n (fun l => (ag_jit g l i * ag_jt g i k) * (y l - ag_origin g l)))).
  - rewrite rsum_swap. rewrite (rsum_ext n _ (fun l => if Nat.eqb l k then y l - ag_origin g l else 0)).
    + rewrite (rsum_delta n k (fun l => y l - ag_origin g l)) by assumption. ring.
    + intros l Hl. rewrite rsum_scal_r. change (mmul n (ag_jit g) (ag_jt g) l k * (y l - ag_origin g l) = if Nat.eqb l k then y l - ag_origin g l else 0).
      rewrite I by assumption. unfold mone. destruct (Nat.eqb l k); ring.
  - intros i Hi. rewrite <- rsum_scal. apply rsum_ext. intros. ring.
Qed.

(** construction from corners *)
Lemma corner_rows_spec coords o junk : forall m jt, corner_rows m coords o junk = Some jt ->
  (forall i, (i < m)%nat -> exists c, nth_error coords (S i) = Some c /\ forall k, jt i k = c k - o k).
Proof.
  induction m; cbn [corner_rows]; intros jt E i Hi; [lia|].
  destruct (corner_rows m coords o junk) as [jt'|]; [|discriminate]. cbn [obind] in E.
  destruct (nth_error coords (m + 1)) as [c|] eqn:Ec; [|discriminate]. cbn [obind] in E. injection E as <-.
  destruct (Nat.eqb_spec i m).
  - subst. exists c. replace (S m) with (m + 1)%nat by lia. split; [assumption|reflexivity].
  - apply (IHm jt' eq_refl). lia.
Qed.
Lemma corner_rows_ok coords o junk : forall m, (m < length coords)%nat -> exists jt, corner_rows m coords o junk = Some jt.
Proof.
  induction m; simpl; intro H; [eauto|].
  destruct IHm as [jt E]; [lia|]. rewrite E. simpl.
  destruct (nth_error coords (m + 1)) eqn:Ec; simpl; eauto.
  apply nth_error_None in Ec. lia.
Qed.

(** the linear part of an embedding is injective *)
Lemma Lin_injective T : forall f y, is_face T f -> (forall k, (k < tdim T)%nat -> Lin T f y k = 0) ->
  forall j, (j < tdim (ftype T f))%nat -> y j = 0.
Proof.
  induction T as [|b IH|b IH]; intros f y Hf H j Hj; destruct f; cbn [is_face] in Hf; try contradiction; cbn [ftype tdim] in *; try lia.
  - assert (E := H (tdim b) ltac:(lia)). rewrite Lin_Side, Nat.eqb_refl in E.
    destruct (Nat.eq_dec j (tdim (ftype b f))); [now subst|]. apply (IH f y Hf); [|lia].
    intros k Hk. rewrite <- (H k) by lia. now rewrite Lin_Side, (proj2 (Nat.eqb_neq k (tdim b))) by lia.
  - apply (IH f y Hf); [|lia]. intros k Hk. rewrite <- (H k) by lia. reflexivity.
  - apply (IH f y Hf); [|lia]. intros k Hk. rewrite <- (H k) by lia. reflexivity.
  - apply (IH f y Hf); [|lia]. intros k Hk. rewrite <- (H k) by lia. reflexivity.
  - assert (E := H (tdim b) ltac:(lia)). rewrite Lin_Cone, Nat.eqb_refl in E.
    destruct (Nat.eq_dec j (tdim (ftype b f))); [now subst|]. apply (IH f y Hf); [|lia].
    intros k Hk. assert (Ek := H k ltac:(lia)). rewrite Lin_Cone, (proj2 (Nat.eqb_neq k (tdim b))), E in Ek by lia. lra.
Qed.
Lemma embedding_independent id dim c i e : (id < bit dim)%N -> (c <= dim)%nat -> (i < size id dim c)%nat ->
  re_geometry id dim c i = Some e -> row_independent (dim - c) dim (snd e).
Proof.
  intros Hid Hc Hi He. destruct (sub_data id dim c i Hid Hc Hi) as (f & Hf & Ec & Ei & G & _).
  rewrite He in G. injection G as ->. intros x Hx a Ha.
  assert (TD : tdim (ftype (topo_of id dim) f) = (dim - c)%nat) by (now rewrite tdim_ftype, Ec, tdim_topo_of).
  apply (Lin_injective (topo_of id dim) f x Hf); [|lia]. rewrite tdim_topo_of. intros k Hk.
  rewrite <- (Hx k Hk). unfold Lin, mvec, mtr. rewrite TD. reflexivity.
Qed.

(** global preserves affine combinations *)
Lemma ag_global_comb mydim g n (w : nat -> R) (p : nat -> Vec) k : rsum n w = 1 ->
  ag_global mydim g (fun j => rsum n (fun i => w i * p i j)) k = rsum n (fun i => w i * ag_global mydim g (p i) k).
Proof.
  intros W. unfold ag_global.
  rewrite (rsum_ext n (fun i => w i * (ag_origin g k + _)) (fun i => w i * ag_origin g k + w i * rsum mydim (fun j => ag_jt g j k * p i j))) by (intros; ring).
  rewrite rsum_plus, rsum_scal_r, W, Rmult_1_l. f_equal.
  rewrite (rsum_ext mydim _ (fun j => rsum n (fun i => w i * (ag_jt g j k * p i j)))).
  - rewrite rsum_swap. apply rsum_ext. intros. now rewrite rsum_scal.
  - intros j Hj. rewrite <- rsum_scal. apply rsum_ext. intros. ring.
Qed.
