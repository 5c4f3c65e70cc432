(** C70, continued: AffineGeometry::local in IEEE arithmetic (affinegeometry.hh:174-179) *)
From Coq Require Import PeanoNat NArith ZArith Bool List Reals Lra Lia.
From Flocq Require Import Core IEEE754.BinarySingleNaN.
From Verif Require Import M_RefTopo M_Matrix M_Float M_FloatGlobal M_FloatLocal S_RefGeo S_FloatMat P_Float2 P_FloatErr P_FloatMat2 P_FloatMat3 P_FloatMat4 T_Float T_FloatGlobal T_FloatLocal.
Import ListNotations.
Local Open Scope R_scope.

Section T.
Variables (prec emax : Z).
Context (Hp : Prec_gt_0 prec) (He : Prec_lt_emax prec emax).
Notation float := (binary_float prec emax).
Notation u := (uro prec).
Notation eta := (tiny prec emax).
Notation grow := (grow prec).
Notation gam := (gam prec).
Notation fin := (@is_finite prec emax).
Notation val := (@B2R prec emax).
Notation sub := (fsub prec emax Hp He).
Notation local := (fai_local prec emax Hp He).

(** The coordinates of the preimage are the products of the columns of the stored inverse with the difference to the origin, up to cdim+2 relative errors for each term.  Finite
    results have finite data. *)
Theorem C70_affine_local : forall cdim g y j, fin (local cdim g y j) = true ->
  let a := fun i => val (fai_jit prec emax g i j) in let d := fun i => val (y i) - val (fai_origin prec emax g i) in
  (forall i, (i < cdim)%nat -> fin (fai_jit prec emax g i j) = true /\ fin (y i) = true /\ fin (fai_origin prec emax g i) = true) /\
  Rabs (val (local cdim g y j) - rdot cdim a d) <= gam (S (S cdim)) * adot cdim a d + grow cdim * INR cdim * eta.
Proof.
  intros cdim g y j F a d. unfold fai_local in *. destruct (fmtv_err prec emax Hp He _ _ _ _ F) as (K & Q). pose proof (u_pos' prec) as U. fold a in Q.
  set (x := fun i => val (sub (y i) (fai_origin prec emax g i))) in *.
  assert (KS : forall i, (i < cdim)%nat -> fin (y i) = true /\ fin (fai_origin prec emax g i) = true /\ exists e, Rabs e <= u /\ x i = d i * (1 + e)).
  { intros i Hi. destruct (K i Hi) as (_ & Fs). destruct (sub_fin prec emax Hp He _ _ Fs) as (F1 & F2 & V). split; [exact F1|]. split; [exact F2|].
    destruct (rel_minus prec emax Hp (val (y i)) (val (fai_origin prec emax g i)) (generic_format_B2R _ _ _) (generic_format_B2R _ _ _)) as (e & E & R1).
    exists e. split; [exact E|]. unfold x, d. rewrite V. exact R1. }
  split; [intros i Hi; destruct (K i Hi); destruct (KS i Hi) as (? & ? & _); now repeat split|].
  assert (A1 : adot cdim a x <= (1 + u) * adot cdim a d).
  { unfold adot. rewrite <- Ssum_scal. apply Ssum_le. intros i Hi. destruct (KS i Hi) as (_ & _ & e & E & ->).
    rewrite <- Rmult_assoc, Rabs_mult, Rmult_comm. apply Rmult_le_compat_r; [apply Rabs_pos|]. eapply Rle_trans; [apply Rabs_triang|]. rewrite Rabs_R1. lra. }
  assert (A2 : Rabs (rdot cdim a x - rdot cdim a d) <= u * adot cdim a d).
  { unfold adot, rdot. assert (G : forall n, (n <= cdim)%nat -> Rabs (Ssum n (fun k => a k * x k) - Ssum n (fun k => a k * d k)) <= u * Ssum n (fun k => Rabs (a k * d k))).
    { induction n as [|n IH]; intro Hn; cbn [Ssum]; [rewrite Rminus_0_r, Rabs_R0; lra|]. specialize (IH ltac:(lia)). destruct (KS n ltac:(lia)) as (_ & _ & e & E & X).
      assert (Y : Rabs (a n * x n - a n * d n) <= u * Rabs (a n * d n)).
      { rewrite X. replace (a n * (d n * (1 + e)) - a n * d n) with (e * (a n * d n)) by ring. rewrite Rabs_mult. apply Rmult_le_compat_r; [apply Rabs_pos|exact E]. }
      match goal with |- Rabs ?t <= _ => replace t with ((Ssum n (fun k => a k * x k) - Ssum n (fun k => a k * d k)) + (a n * x n - a n * d n)) by ring end.
      eapply Rle_trans; [apply Rabs_triang|]. lra. }
    apply G. lia. }
  assert (G0 : 0 <= gam (S cdim)) by (unfold S_FloatMat.gam, S_FloatMat.grow; pose proof (pow_R1_Rle (1 + u) (S cdim) ltac:(lra)); lra).
  assert (G1 : gam (S (S cdim)) = gam (S cdim) * (1 + u) + u) by (unfold S_FloatMat.gam, S_FloatMat.grow; cbn [pow]; ring).
  assert (A3 : gam (S cdim) * adot cdim a x <= gam (S cdim) * ((1 + u) * adot cdim a d)) by (apply Rmult_le_compat_l; assumption).
  pose proof (Rabs_triang (val (fmtv prec emax Hp He cdim (fai_jit prec emax g) (fun i => sub (y i) (fai_origin prec emax g i)) j) - rdot cdim a x) (rdot cdim a x - rdot cdim a d)) as T.
  match type of T with Rabs ?t <= _ => match goal with |- Rabs ?s <= _ => replace t with s in T by ring end end.
  rewrite G1. lra.
Qed.

(** The origin has the local coordinates 0, without error, if the stored inverse is finite. *)
Theorem C70_affine_local_origin : forall cdim g y j,
  (forall i, (i < cdim)%nat -> fin (fai_jit prec emax g i j) = true /\ fin (y i) = true /\ fin (fai_origin prec emax g i) = true /\ val (y i) = val (fai_origin prec emax g i)) ->
  fin (local cdim g y j) = true /\ val (local cdim g y j) = 0.
Proof.
  intros cdim g y j H. assert (Q : forall n, (n <= cdim)%nat -> fin (forN n (fun i s => fadd prec emax Hp He s (fmul prec emax Hp He (fai_jit prec emax g i j) (sub (y i) (fai_origin prec emax g i)))) (B754_zero false)) = true
    /\ val (forN n (fun i s => fadd prec emax Hp He s (fmul prec emax Hp He (fai_jit prec emax g i j) (sub (y i) (fai_origin prec emax g i)))) (B754_zero false)) = 0).
  { induction n as [|n IH]; intro Hn; [split; reflexivity|]. specialize (IH ltac:(lia)). cbn [forN].
    set (s := forN n _ _) in *. clearbody s. destruct IH as (Fs & Vs). destruct (H n ltac:(lia)) as (Fa & Fy & Fo & E).
    assert (R0 : Rabs 0 < bpow radix2 emax) by (rewrite Rabs_R0; apply bpow_gt_0).
    pose proof (Bminus_correct prec emax Hp He mode_NE (y n) (fai_origin prec emax g n) Fy Fo) as S1. rewrite E, Rminus_eq_0 in S1. rewrite round_0 in S1 by typeclasses eauto. rewrite Rlt_bool_true in S1 by exact R0. destruct S1 as (S1 & S2 & _).
    change (Bminus mode_NE (y n) (fai_origin prec emax g n)) with (sub (y n) (fai_origin prec emax g n)) in *. set (d := sub (y n) (fai_origin prec emax g n)) in *. clearbody d.
    pose proof (Bmult_correct prec emax Hp He mode_NE (fai_jit prec emax g n j) d) as S3. rewrite S1, Rmult_0_r in S3. rewrite round_0 in S3 by typeclasses eauto. rewrite Rlt_bool_true in S3 by exact R0. destruct S3 as (S3 & S4 & _). rewrite Fa, S2 in S4.
    change (Bmult mode_NE (fai_jit prec emax g n j) d) with (fmul prec emax Hp He (fai_jit prec emax g n j) d) in *. set (m := fmul prec emax Hp He (fai_jit prec emax g n j) d) in *. clearbody m.
    pose proof (Bplus_correct prec emax Hp He mode_NE s m Fs S4) as S5. rewrite Vs, S3, Rplus_0_r in S5. rewrite round_0 in S5 by typeclasses eauto. rewrite Rlt_bool_true in S5 by exact R0. destruct S5 as (S5 & S6 & _). now split. }
  apply (Q cdim). lia.
Qed.
End T.
Print Assumptions C70_affine_local.
Print Assumptions C70_affine_local_origin.

(** the matrix ((2,0),(1,1)) with origin (1,1): (5,3) has the local coordinates (1,2) *)
Example C70_affine_local_example : let d := fun z => dbl z 0 in
  option_map (fun g => map (fun k => B2SF (fai_local 53 1024 p53 e1024 2 g (two (d 5%Z) (d 3%Z)) k)) [0%nat; 1%nat])
    (fai_make 53 1024 p53 e1024 2 2 (two (d 1%Z) (d 1%Z)) (two (two (d 2%Z) (d 0%Z)) (two (d 1%Z) (d 1%Z))) (fun _ _ => d 0%Z) (fun _ _ => d 0%Z) (fun _ _ => d 0%Z))
  = Some [B2SF (d 1%Z); B2SF (d 2%Z)].
Proof. vm_compute. reflexivity. Qed.
