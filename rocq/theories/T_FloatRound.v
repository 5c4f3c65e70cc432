(** * C101  AffineGeometry in IEEE arithmetic: local after global, and the rows stored by the constructor (C100_rows) *)
From Coq Require Import PeanoNat NArith ZArith Bool List Reals Lra Lia.
From Flocq Require Import Core IEEE754.BinarySingleNaN.
From Verif Require Import M_RefTopo M_Matrix M_Float M_FloatGlobal M_FloatLocal M_FloatVolume M_FloatRound S_RefGeo S_FloatMat P_Float2 P_FloatErr P_FloatGlobal7 P_FloatMat2 P_FloatMat3 P_FloatMat4
  T_Float T_FloatGlobal T_FloatLocal T_FloatMat T_FloatAffLocal.
Import ListNotations.
Local Open Scope R_scope.

Lemma Ssum_delta n j (x : nat -> R) : (j < n)%nat -> Ssum n (fun k => if Nat.eqb k j then x k else 0) = x j.
Proof.
  intro H. assert (Z : forall m, (m <= j)%nat -> Ssum m (fun k => if Nat.eqb k j then x k else 0) = 0).
  { induction m as [|m IH]; intro Hm; [reflexivity|]. cbn [Ssum]. rewrite IH by lia. destruct (Nat.eqb_spec m j); [lia|]. ring. }
  induction n as [|n IH]; [lia|]. cbn [Ssum]. destruct (Nat.eqb_spec n j) as [->|N]; [rewrite Z by lia; ring|]. rewrite IH by lia. ring.
Qed.

Section T.
Variables (prec emax : Z).
Context (Hp : Prec_gt_0 prec) (He : Prec_lt_emax prec emax).
Notation float := (binary_float prec emax).
Notation u := (uro prec).
Notation eta := (tiny prec emax).
Notation grow := (grow prec).
Notation gam := (gam prec).
Notation fin := (@is_finite prec emax).
Notation val := (@B2R prec emax).
Notation local := (fai_local prec emax Hp He).
Notation global := (fai_global prec emax Hp He).
Notation jt := (fai_jt prec emax).
Notation jit := (fai_jit prec emax).
Notation origin := (fai_origin prec emax).

(** The constructor from corners, in all dimensions: it reads one corner more than the dimension, the origin is the first one, and each finite entry of the rows is the difference of two
    corners with one relative error. *)
Theorem C100_rows : forall mydim cdim corners ret j1 j2,
  ((length corners <= mydim)%nat -> fai_corners prec emax Hp He mydim cdim corners ret j1 j2 = None) /\
  forall g, fai_corners prec emax Hp He mydim cdim corners ret j1 j2 = Some g -> exists o, nth_error corners 0 = Some o /\ origin g = o /\
    forall i k, (i < mydim)%nat -> exists c, nth_error corners (S i) = Some c /\
      (fin (jt g i k) = true -> exists e, Rabs e <= u /\ val (jt g i k) = (val (c k) - val (o k)) * (1 + e)).
Proof.
  intros mydim cdim corners ret j1 j2. unfold fai_corners. destruct corners as [|o l]; [split; [reflexivity|discriminate]|]. split.
  - cbn [length]. intro L. destruct (Nat.leb_spec mydim (length l)); [lia|reflexivity].
  - intros g E. destruct (Nat.leb_spec mydim (length l)) as [L|]; [|discriminate]. unfold fai_make in E. destruct (frightInvA _ _ _ _ _ _ _ _ _ _) as [(det, inv)|]; cbn [obind] in E; [|discriminate]. injection E as <-.
    exists o. split; [reflexivity|]. split; [reflexivity|]. intros i k Hi. exists (nth i l o). cbn [nth_error]. split; [apply nth_error_nth'; lia|]. cbn [fai_jt]. intro F.
    destruct (sub_fin prec emax Hp He _ _ F) as (_ & _ & V). destruct (rel_minus prec emax Hp (val (nth i l o k)) (val (o k)) (generic_format_B2R _ _ _) (generic_format_B2R _ _ _)) as (e & Ee & R1).
    exists e. split; [exact Ee|]. rewrite V. exact R1.
Qed.

(** ** the image of a point *)
Definition gerr (mydim : nat) (g : AffineFI prec emax) (x : nat -> float) (i : nat) : R :=
  gam (S mydim) * (Rabs (val (origin g i)) + adot mydim (fun k => val (jt g k i)) (fun k => val (x k))) + grow mydim * INR mydim * eta.
Theorem C101_global : forall cdim mydim g x i, (i < cdim)%nat -> fin (global cdim mydim g x i) = true ->
  fin (origin g i) = true /\ (forall k, (k < mydim)%nat -> fin (jt g k i) = true /\ fin (x k) = true) /\
  Rabs (val (global cdim mydim g x i) - (val (origin g i) + rdot mydim (fun k => val (jt g k i)) (fun k => val (x k)))) <= gerr mydim g x i.
Proof.
  intros cdim mydim g x i Hi F. unfold fai_global in *. rewrite (fumtv_at prec emax Hp He) in F |- * by exact Hi. pose proof (u_pos' prec) as U.
  destruct (add_loop prec emax Hp He (fun k => jt g k i) x (origin g i) (val (origin g i)) (Rabs (val (origin g i))) (1 + bpow radix2 (- prec)) 0) with (m := mydim) as (F0 & K & B).
  - lra.
  - lra.
  - lra.
  - intros _. unfold Rminus at 1. rewrite Rplus_opp_r, Rabs_R0. change (bpow radix2 (- prec)) with u. pose proof (Rabs_pos (val (origin g i))). nra.
  - exact F.
  - split; [exact F0|]. split; [exact K|]. eapply Rle_trans; [exact B|]. apply Req_le. unfold gerr, adot, S_FloatMat.gam. rewrite growS. unfold S_FloatMat.grow, uro, tiny. ring.
Qed.

(** ** local after global: [res] is the residual of the stored inverse *)
Definition res (cdim : nat) (g : AffineFI prec emax) (k j : nat) : R :=
  rdot cdim (fun i => val (jt g k i)) (fun i => val (jit g i j)) - (if Nat.eqb k j then 1 else 0).
Theorem C101_round_trip : forall cdim mydim g x j, (j < mydim)%nat -> let y := global cdim mydim g x in
  (forall i, (i < cdim)%nat -> fin (y i) = true) -> fin (local cdim g y j) = true ->
  Rabs (val (local cdim g y j) - val (x j)) <=
    Ssum mydim (fun k => Rabs (res cdim g k j) * Rabs (val (x k)))
    + Ssum cdim (fun i => Rabs (val (jit g i j)) * (gam (S (S cdim)) * adot mydim (fun k => val (jt g k i)) (fun k => val (x k)) + grow (S (S cdim)) * gerr mydim g x i))
    + grow cdim * INR cdim * eta.
Proof.
  intros cdim mydim g x j Hj y Fy Fl. destruct (C70_affine_local prec emax Hp He cdim g y j Fl) as (_ & Q).
  set (a := fun i => val (jit g i j)) in *. set (d := fun i => val (y i) - val (origin g i)) in *.
  set (t := fun i => rdot mydim (fun k => val (jt g k i)) (fun k => val (x k))). set (T := fun i => adot mydim (fun k => val (jt g k i)) (fun k => val (x k))).
  assert (Dt : forall i, (i < cdim)%nat -> Rabs (d i - t i) <= gerr mydim g x i).
  { intros i Hi. destruct (C101_global cdim mydim g x i Hi (Fy i Hi)) as (_ & _ & B). unfold d, t. eapply Rle_trans; [|exact B]. apply Req_le. f_equal. unfold y. ring. }
  assert (TT : forall i, Rabs (t i) <= T i) by (intro i; apply Ssum_abs).
  pose proof (gam_pos prec (S (S cdim))) as G0.
  assert (A1 : gam (S (S cdim)) * adot cdim a d <= Ssum cdim (fun i => Rabs (a i) * (gam (S (S cdim)) * T i + gam (S (S cdim)) * gerr mydim g x i))).
  { unfold adot. rewrite <- Ssum_scal. apply Ssum_le. intros i Hi. rewrite Rabs_mult. specialize (Dt i Hi). specialize (TT i).
    assert (Rabs (d i) <= T i + gerr mydim g x i) by (replace (d i) with (t i + (d i - t i)) by ring; eapply Rle_trans; [apply Rabs_triang|]; lra).
    replace (gam (S (S cdim)) * (Rabs (a i) * Rabs (d i))) with (Rabs (a i) * (gam (S (S cdim)) * Rabs (d i))) by ring. apply Rmult_le_compat_l; [apply Rabs_pos|]. rewrite <- Rmult_plus_distr_l. apply Rmult_le_compat_l; lra. }
  assert (A2 : Rabs (rdot cdim a d - rdot cdim a t) <= Ssum cdim (fun i => Rabs (a i) * gerr mydim g x i)).
  { unfold rdot. replace (Ssum cdim (fun k => a k * d k) - Ssum cdim (fun k => a k * t k)) with (Ssum cdim (fun k => a k * (d k - t k))).
    - eapply Rle_trans; [apply Ssum_abs|]. apply Ssum_le. intros i Hi. rewrite Rabs_mult. apply Rmult_le_compat_l; [apply Rabs_pos|]. now apply Dt.
    - rewrite (Ssum_ext cdim _ (fun k => a k * d k + (-1) * (a k * t k))) by (intros; ring). rewrite Ssum_plus, Ssum_scal. ring. }
  assert (A3 : rdot cdim a t - val (x j) = Ssum mydim (fun k => res cdim g k j * val (x k))).
  { unfold res. rewrite (Ssum_ext mydim _ (fun k => rdot cdim (fun i => val (jt g k i)) a * val (x k) + (-1) * (if Nat.eqb k j then val (x k) else 0))).
    2: { intros k Hk. unfold a. destruct (Nat.eqb k j); ring. }
    rewrite Ssum_plus, Ssum_scal, (Ssum_delta mydim j (fun k => val (x k)) Hj). unfold rdot, t.
    rewrite (Ssum_ext cdim (fun k => a k * rdot mydim _ _) (fun i => Ssum mydim (fun k => a i * (val (jt g k i) * val (x k))))).
    2: { intros i Hi. rewrite Ssum_scal. reflexivity. }
    rewrite Ssum_swap. rewrite (Ssum_ext mydim (fun j0 => Ssum cdim _) (fun k => Ssum cdim (fun i => val (jt g k i) * a i) * val (x k))); [ring|].
    intros k Hk. rewrite Rmult_comm, <- Ssum_scal. apply Ssum_ext. intros i Hi. ring. }
  assert (A4 : Rabs (rdot cdim a t - val (x j)) <= Ssum mydim (fun k => Rabs (res cdim g k j) * Rabs (val (x k)))).
  { rewrite A3. eapply Rle_trans; [apply Ssum_abs|]. apply Ssum_le. intros k Hk. rewrite Rabs_mult. lra. }
  assert (A5 : Ssum cdim (fun i => Rabs (a i) * (gam (S (S cdim)) * T i + grow (S (S cdim)) * gerr mydim g x i)) =
    Ssum cdim (fun i => Rabs (a i) * (gam (S (S cdim)) * T i + gam (S (S cdim)) * gerr mydim g x i)) + Ssum cdim (fun i => Rabs (a i) * gerr mydim g x i)).
  { rewrite <- Ssum_plus. apply Ssum_ext. intros i Hi. unfold S_FloatMat.gam. ring. }
  unfold a at 1, T in A5. rewrite A5.
  replace (val (local cdim g y j) - val (x j)) with ((val (local cdim g y j) - rdot cdim a d) + ((rdot cdim a d - rdot cdim a t) + (rdot cdim a t - val (x j)))) by ring.
  eapply Rle_trans; [apply Rabs_triang|]. pose proof (Rabs_triang (rdot cdim a d - rdot cdim a t) (rdot cdim a t - val (x j))) as TR.
  unfold T in A1. lra.
Qed.

(** ** the residual in the plane, relative to the integration element *)
Theorem C101_residual : (2 <= prec)%Z -> forall o A ret j1 j2, exists g, fai_make prec emax Hp He 2 2 o A ret j1 j2 = Some g /\ origin g = o /\ jt g = A /\
  (fin (fai_int prec emax g) = true -> (forall i j, (i < 2)%nat -> (j < 2)%nat -> fin (jit g i j) = true) ->
   let D := val (fai_int prec emax g) in 0 < D /\
   let a := fun i j => Rabs (val (A i j)) in
   forall k j, (k < 2)%nat -> (j < 2)%nat ->
     let s := if Nat.eqb k j then a 0%nat 0%nat * a 1%nat 1%nat + a 1%nat 0%nat * a 0%nat 1%nat else 2 * (a k 0%nat * a k 1%nat) in
     Rabs (res 2 g k j) * D <= (if Nat.eqb k j then 2 else 1) * gam 2 * s + ((if Nat.eqb k j then 2 * (1 + u) else 0) + ((1 + u) * s + a k 0%nat + a k 1%nat) * D) * eta).
Proof.
  intros P2 o A ret j1 j2. exists {| fai_origin := o; fai_jt := A; fai_jit := snd (finv22 prec emax Hp He A ret); fai_int := fst (finv22 prec emax Hp He A ret) |}. split; [reflexivity|]. cbn [fai_origin fai_jt fai_int fai_jit]. split; [reflexivity|]. split; [reflexivity|].
  intros FD F. assert (FD' : fin (fdet22 prec emax Hp He A) = true) by (unfold finv22 in FD; cbv zeta in FD; cbn [fst] in FD; rewrite is_finite_Babs in FD; exact FD).
  destruct (C71_inv22 prec emax Hp He P2 A ret FD' F) as (VD & Q). pose proof (F 0%nat 0%nat ltac:(lia) ltac:(lia)) as F00. set (r := finv22 prec emax Hp He A ret) in *.
  assert (N0 : val (fdet22 prec emax Hp He A) <> 0).
  { change (snd r 0%nat 0%nat) with (fmul prec emax Hp He (A 1%nat 1%nat) (fdiv prec emax Hp He (ofZ prec emax Hp He 1) (fdet22 prec emax Hp He A))) in F00.
    destruct (mul_fin prec emax Hp He _ _ F00) as (_ & Fi & _). destruct (div_fin prec emax Hp He _ _ Fi FD') as (_ & ND & _). exact ND. }
  pose proof (cross_err prec emax Hp He _ _ _ _ FD') as CE. fold (fdet22 prec emax Hp He A) in CE. clearbody r. clear F00 F FD FD'. rewrite VD.
  set (D := val (fdet22 prec emax Hp He A)) in *. clearbody D. clear VD.
  cbv zeta. split; [now apply Rabs_pos_lt|]. rewrite !Rabs_mult in CE.
  pose proof (u_pos' prec) as U. pose proof (eta_pos' prec emax) as Et. pose proof (gam_pos prec 2) as G.
  assert (E : forall i j, (i < 2)%nat -> (j < 2)%nat -> let adj := if Nat.eqb i j then val (A (1 - i) (1 - i))%nat else - val (A i j) in
     exists e, val (snd r i j) * D = adj + e /\ Rabs e <= gam 2 * Rabs adj + ((1 + u) * Rabs adj + 1) * Rabs D * eta).
  { intros i j Hi Hj adj. exists (val (snd r i j) * D - adj). split; [ring|]. exact (Q i j Hi Hj). }
  assert (L : forall k j, Rabs (res 2 {| fai_origin := o; fai_jt := A; fai_jit := snd r; fai_int := fst r |} k j) * Rabs D =
     Rabs (val (A k 0%nat) * (val (snd r 0%nat j) * D) + val (A k 1%nat) * (val (snd r 1%nat j) * D) - (if Nat.eqb k j then D else 0))).
  { intros k j. rewrite <- Rabs_mult. f_equal. unfold res, rdot. cbn [Ssum fai_jt fai_jit]. destruct (Nat.eqb k j); ring. }
  destruct (E 0%nat 0%nat ltac:(lia) ltac:(lia)) as (e00 & V00 & B00). destruct (E 0%nat 1%nat ltac:(lia) ltac:(lia)) as (e01 & V01 & B01).
  destruct (E 1%nat 0%nat ltac:(lia) ltac:(lia)) as (e10 & V10 & B10). destruct (E 1%nat 1%nat ltac:(lia) ltac:(lia)) as (e11 & V11 & B11).
  clear E Q. cbn [Nat.eqb Nat.sub] in *. rewrite ?Rabs_Ropp in *.
  intros k j Hk Hj. rewrite L. clear L.
  set (a := val (A 0%nat 0%nat)) in *. set (b := val (A 0%nat 1%nat)) in *. set (c := val (A 1%nat 0%nat)) in *. set (d := val (A 1%nat 1%nat)) in *.
  assert (M : forall x y e, Rabs e <= y -> Rabs (x * e) <= Rabs x * y) by (intros x y e He'; rewrite Rabs_mult; apply Rmult_le_compat_l; [apply Rabs_pos|exact He']).
  destruct k as [|[|k]]; [| |lia]; (destruct j as [|[|j]]; [| |lia]); cbn [Nat.eqb]; fold a b c d; rewrite ?V00, ?V01, ?V10, ?V11.
  - match goal with |- Rabs ?t <= _ => replace t with ((- (D - (a * d - c * b)) + a * e00) + b * e10) by ring end.
    eapply Rle_trans; [apply Rabs_triang|]. pose proof (Rabs_triang (- (D - (a * d - c * b))) (a * e00)) as TR. rewrite Rabs_Ropp in TR. pose proof (M a _ _ B00). pose proof (M b _ _ B10). lra.
  - match goal with |- Rabs ?t <= _ => replace t with (a * e01 + b * e11) by ring end.
    eapply Rle_trans; [apply Rabs_triang|]. pose proof (M a _ _ B01). pose proof (M b _ _ B11). lra.
  - match goal with |- Rabs ?t <= _ => replace t with (c * e00 + d * e10) by ring end.
    eapply Rle_trans; [apply Rabs_triang|]. pose proof (M c _ _ B00). pose proof (M d _ _ B10). lra.
  - match goal with |- Rabs ?t <= _ => replace t with ((- (D - (a * d - c * b)) + c * e01) + d * e11) by ring end.
    eapply Rle_trans; [apply Rabs_triang|]. pose proof (Rabs_triang (- (D - (a * d - c * b))) (c * e01)) as TR. rewrite Rabs_Ropp in TR. pose proof (M c _ _ B01). pose proof (M d _ _ B11). lra.
Qed.
End T.
Print Assumptions C100_rows.
Print Assumptions C101_global.
Print Assumptions C101_round_trip.
Print Assumptions C101_residual.

(** Without a bound on the condition number the round trip is not close: in single precision, the corner (1,0) of a triangle with the origin as first corner has the local coordinate 3/2, and
    checkInside rejects it.  The triangle is not flat, its corners and its integration element are without error. *)
Definition thin_triangle : list (nat -> binary_float 24 128) :=
  [two (sgl 0 0) (sgl 0 0); two (sgl 4091 (-12)) (sgl 4092 (-12)); two (sgl 4094 (-12)) (sgl 4095 (-12))].
Theorem C101_corner_refuted : exists corners : list (nat -> binary_float 24 128), length corners = 3%nat /\
  forall ret j1 j2, exists g, fai_corners 24 128 p24 e128 2 2 corners ret j1 j2 = Some g /\
    (forall k, (k < 2)%nat -> fai_global 24 128 p24 e128 2 2 g (two (sgl 1 0) (sgl 0 0)) k = nth 1 corners (fun _ => sgl 0 0) k) /\
    B2R (fai_int 24 128 g) = 3 * bpow radix2 (-24) /\
    let x := fai_local 24 128 p24 e128 2 g (nth 1 corners (fun _ => sgl 0 0)) in
    B2R (x 0%nat) = 3 / 2 /\ re_checkInside 24 128 p24 e128 0 2 x = false /\ re_checkInside 24 128 p24 e128 0 2 (two (sgl 1 0) (sgl 0 0)) = true.
Proof.
  exists thin_triangle. split; [reflexivity|]. intros ret j1 j2. eexists. split; [reflexivity|]. split; [|split; [|split; [|split]]].
  - intros k Hk. apply B2SF_inj. destruct k as [|[|k]]; [vm_compute; reflexivity|vm_compute; reflexivity|lia].
  - rewrite (sgl_value _ 12582912 (-46)) by (vm_compute; reflexivity). cbn. lra.
  - rewrite (sgl_value _ 12582912 (-23)) by (vm_compute; reflexivity). cbn. lra.
  - vm_compute. reflexivity.
  - vm_compute. reflexivity.
Qed.
Print Assumptions C101_corner_refuted.

(** the triangle (1,1), (3,1), (2,2) in double precision: (1/4, 1/2) is mapped to (2, 3/2) and back, without error *)
Example C101_example : let d := fun z => dbl z 0 in let o := fun _ _ : nat => dbl 0 0 in
  option_map (fun g => let y := fai_global 53 1024 p53 e1024 2 2 g (two (dbl 1 (-2)) (dbl 1 (-1))) in
      (map (fun k => B2SF (y k)) [0%nat; 1%nat], map (fun k => B2SF (fai_local 53 1024 p53 e1024 2 g y k)) [0%nat; 1%nat]))
    (fai_corners 53 1024 p53 e1024 2 2 [two (d 1%Z) (d 1%Z); two (d 3%Z) (d 1%Z); two (d 2%Z) (d 2%Z)] o o o)
  = Some ([B2SF (d 2%Z); B2SF (dbl 3 (-1))], [B2SF (dbl 1 (-2)); B2SF (dbl 1 (-1))]).
Proof. vm_compute. reflexivity. Qed.
