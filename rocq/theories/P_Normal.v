(** Mapped integration outer normals: the linear algebra. *)
From Coq Require Import NArith PeanoNat Bool List Lia Reals Lra FunctionalExtensionality.
From Verif Require Import M_Type M_RefTopo M_RefGeo P_Type P_Type2 S_Topo P_Topo P_RefTopo P_RefTopo2 P_RefTopo3 P_RSum P_RefGeo P_RefGeo2 P_RefGeo3 P_Det P_RefDet M_Matrix S_Matrix P_MxBridge P_Matrix3 P_Matrix4 P_DetInv T_Matrix P_ML5.
Import ListNotations.
Local Open Scope R_scope.

Lemma det_rowind n A : detR n A <> 0 -> row_independent n n A.
Proof. intro H. destruct (det_inverse H) as (B & E). exact (det_row_independent n A B E). Qed.

Lemma mvec_mmul n m A B x i : mvec n (mmul m A B) x i = mvec m A (mvec n B x) i.
Proof.
  unfold mvec, mmul. rewrite (rsum_ext n _ (fun j => rsum m (fun k => A i k * (B k j * x j)))).
  - rewrite rsum_swap. apply rsum_ext. intros k Hk. now rewrite rsum_scal.
  - intros j Hj. rewrite <- rsum_scal_r. apply rsum_ext. intros. ring.
Qed.

Section F.
Variables (T : Topo) (f : Face).
Hypothesis Hf : is_face T f.
Hypothesis Hc : fcod T f = 1%nat.
Notation n := (tdim T).
Notation m := (tdim T - 1)%nat.
Notation E := (fjt T f).
Notation N := (nrm T f).

Lemma tdim_facet : n = S m.
Proof. pose proof (fcod_le T f Hf). lia. Qed.

Lemma facet_orth i : (i < m)%nat -> dot n (E i) N = 0.
Proof.
  intros Hi. rewrite dot_comm.
  rewrite <- (nrm_orthogonal T f (fun j => if (j =? i)%nat then 1 else 0) Hf Hc). apply dot_ext; [reflexivity|]. intros k Hk. unfold Lin.
  rewrite tdim_ftype, Hc by assumption.
  rewrite (rsum_ext _ _ (fun j => if (j =? i)%nat then E j k else 0)).
  - now rewrite (rsum_delta m i (fun j => E j k)).
  - intros j Hj. destruct (Nat.eqb_spec j i); lra.
Qed.

Lemma nrm_pos : 0 < dot n N N.
Proof. apply rsum_sq_pos. now apply nrm_nonzero. Qed.

(** the rows of the embedding are independent *)
Lemma facet_rowind : row_independent m n E.
Proof.
  destruct (det_normal T f Hf Hc) as (s & Hs & H). pose proof (H N) as D. pose proof nrm_pos as P.
  assert (D' : detR n (aug m E N) <> 0) by (rewrite D; destruct Hs as [->| ->]; lra).
  pose proof (det_rowind _ _ D') as I. intros x Hx i Hi.
  assert (Z : (if (i <? m)%nat then x i else 0) = 0).
  { apply (I (fun i => if (i <? m)%nat then x i else 0)); [|pose proof tdim_facet; lia].
    intros j Hj. unfold mvec, mtr. rewrite tdim_facet at 1. rewrite rsum_S. destruct (Nat.ltb_spec m m); [lia|].
    rewrite Rmult_0_r, Rplus_0_r. rewrite <- (Hx j Hj). unfold mvec, mtr. apply rsum_ext.
    intros k Hk. unfold aug. destruct (Nat.ltb_spec k m); [reflexivity|lia]. }
  destruct (Nat.ltb_spec i m); [exact Z|lia].
Qed.

(** what the embedding annihilates is a multiple of the normal *)
Lemma facet_kernel z : (forall j, (j < m)%nat -> dot n (E j) z = 0) -> exists c, forall l, (l < n)%nat -> z l = c * N l.
Proof.
  intro Hz. destruct (det_normal T f Hf Hc) as (s & Hs & H). pose proof (H N) as D. pose proof nrm_pos as P.
  assert (D' : detR n (mtr (aug m E N)) <> 0) by (unfold mtr; rewrite detR_tr, D; destruct Hs as [->| ->]; lra).
  pose proof (det_rowind _ _ D') as I. exists (dot n N z / dot n N N). intros l Hl.
  apply Rminus_diag_uniq.
  apply (I (fun l => z l - dot n N z / dot n N N * N l)); [|assumption].
  intros j Hj. unfold mvec. rewrite (rsum_ext n _ (fun l => aug m E N j l * z l - dot n N z / dot n N N * (aug m E N j l * N l))) by (intros; unfold mtr; ring).
  rewrite rsum_minus, rsum_scal. fold (dot n (aug m E N j) z). fold (dot n (aug m E N j) N). unfold aug.
  destruct (Nat.ltb_spec j m).
  - rewrite Hz, facet_orth by assumption. ring.
  - field. lra.
Qed.

(** a determinant along the facet: det(E G E^T) = det G * N.(G^-1 N) *)
Lemma nanson G (w : Vec) : (forall i, (i < n)%nat -> mvec n G w i = N i) -> 0 < dot n N w ->
  detR m (mmul n E (mmul n G (mtr E))) = detR n G * dot n N w.
Proof.
  intros Hw P. destruct (det_normal T f Hf Hc) as (s & Hs & H). specialize (H w).
  set (A := aug m E w) in *. set (g := detR n G).
  pose proof (detR_mul n A (mmul n G (mtr A))) as M.
  assert (M2 : detR n (mmul n G (mtr A)) = g * (s * dot n N w)).
  { unfold mmul. rewrite (detR_mul n G (mtr A)). unfold mtr. now rewrite (detR_tr n A), H. }
  rewrite M2, H in M.
  assert (Am : A m = w) by (unfold A, aug; destruct (Nat.ltb_spec m m); [lia|reflexivity]).
  assert (Ai : forall i, (i < m)%nat -> A i = E i)
    by (intros i Hi; unfold A, aug; destruct (Nat.ltb_spec i m); [reflexivity|lia]).
  assert (L : forall i, rsum n (fun k => A i k * mmul n G (mtr A) k m) = dot n (A i) N).
  { intro i. apply rsum_ext. intros k Hk. f_equal. unfold mmul, mtr. rewrite Am. now apply Hw. }
  apply (Rmult_eq_reg_r (dot n N w)); [|lra].
  transitivity (s * dot n N w * (g * (s * dot n N w))); [|destruct Hs as [->| ->]; ring].
  rewrite <- M. clear M M2 H.
  match goal with |- _ = detR n ?K => replace (detR n K) with (detR (S m) K) by (f_equal; symmetry; exact tdim_facet) end.
  rewrite detR_lastcol.
  - rewrite L, Am, (dot_comm n w N). f_equal. apply detR_ext. intros i j Hi Hj. unfold mmul, mtr.
    apply rsum_ext. intros k Hk. rewrite Ai by assumption. f_equal. apply rsum_ext. intros l Hl. now rewrite Ai by assumption.
  - intros i Hi. rewrite L, Ai by assumption. now apply facet_orth.
Qed.

Lemma facet_core cdim J jm j1 j2 : (n <= cdim)%nat -> row_independent n cdim J ->
  exists D X, rightInvA n cdim J jm j1 j2 = Some (D, X) /\ 0 < D /\ D * D = detR n (mmul cdim J (mtr J))
    /\ (forall l, (l < n)%nat -> mvec cdim J (mvec n X N) l = N l)
    /\ 0 < dot cdim (mvec n X N) (mvec n X N)
    /\ (exists w, forall k, (k < cdim)%nat -> mvec n X N k = mvec n (mtr J) w k)
    /\ forall J', meq m cdim J' (mmul n E J) ->
         row_independent m cdim J' /\
         forall j1' j2', sqrtDetAAT m cdim J' j1' j2' = Some (D * sqrt (dot cdim (mvec n X N) (mvec n X N))).
Proof.
  intros Hd Hr. destruct (rightInvA_spec n cdim J jm j1 j2 Hd Hr) as (D & X & Gi & E1 & D1 & D2 & HG & HX).
  set (G := mmul cdim J (mtr J)) in *. set (w := mvec n Gi N).
  assert (Xw : forall k, (k < cdim)%nat -> mvec n X N k = mvec n (mtr J) w k).
  { intros k Hk. unfold w. rewrite <- mvec_mmul. unfold mvec. apply rsum_ext. intros j Hj. now rewrite HX. }
  assert (Gw : forall i, (i < n)%nat -> mvec n G w i = N i).
  { intros i Hi. unfold w. rewrite <- mvec_mmul. unfold mvec.
    rewrite (rsum_ext n _ (fun j => if (j =? i)%nat then N j else 0)).
    - now rewrite rsum_delta.
    - intros j Hj. rewrite HG by assumption. unfold mone. rewrite Nat.eqb_sym. destruct (Nat.eqb j i); ring. }
  assert (JX : forall l, (l < n)%nat -> mvec cdim J (mvec n X N) l = N l).
  { intros l Hl. rewrite <- (Gw l Hl). unfold G. rewrite mvec_mmul. unfold mvec at 1 3. apply rsum_ext.
    intros k Hk. now rewrite Xw. }
  assert (Q : dot n N w = dot cdim (mvec n X N) (mvec n X N)).
  { transitivity (dot n (mvec cdim J (mvec n X N)) w).
    - apply dot_ext; [intros; symmetry; now apply JX|reflexivity].
    - unfold dot, mvec at 1. rewrite (rsum_ext n _ (fun l => rsum cdim (fun k => mvec n X N k * (J l k * w l)))).
      + rewrite rsum_swap. apply rsum_ext. intros k Hk. rewrite rsum_scal. f_equal. rewrite Xw by assumption. reflexivity.
      + intros l Hl. rewrite <- rsum_scal_r. apply rsum_ext. intros. ring. }
  assert (P : 0 < dot cdim (mvec n X N) (mvec n X N)).
  { destruct (Req_dec (dot cdim (mvec n X N) (mvec n X N)) 0) as [Z|Z].
    - exfalso. destruct (nrm_nonzero T f Hf Hc) as (k & K1 & K2). apply K2. rewrite <- (JX k K1). unfold mvec at 1.
      apply rsum_0. intros j Hj. rewrite (rsum_sq_0 cdim (mvec n X N) Z j Hj). ring.
    - assert (0 <= dot cdim (mvec n X N) (mvec n X N)) by (apply rsum_nonneg; intros; apply Rle_0_sqr). lra. }
  exists D, X. split; [exact E1|]. split; [exact D1|]. split; [exact D2|]. split; [exact JX|]. split; [exact P|]. split; [now exists w|].
  intros J' HJ'. set (q := dot cdim (mvec n X N) (mvec n X N)) in *.
  assert (R' : row_independent m cdim J').
  { apply (rowind_meq m cdim (mmul n E J) J'); [intros i j Hi Hj; symmetry; now apply HJ'|].
    intros x Hx. apply (facet_rowind). intros l Hl. apply (Hr (mvec m (mtr E) x)); [|assumption].
    intros k Hk. rewrite <- mvec_mmul. rewrite <- (Hx k Hk). unfold mvec. apply rsum_ext. intros i Hi. f_equal.
    unfold mmul, mtr. apply rsum_ext. intros; ring. }
  split; [exact R'|]. intros j1' j2'.
  destruct (C26_sqrtDetAAT m cdim J' j1' j2' R') as (s & E2 & P2 & Q2).
  rewrite E2. f_equal. apply Rsqr_inj; [lra|apply Rmult_le_pos; [lra|apply sqrt_pos]|]. unfold Rsqr.
  replace (D * sqrt q * (D * sqrt q)) with (D * D * (sqrt q * sqrt q)) by ring.
  rewrite sqrt_sqrt by lra. rewrite D2, Q2. rewrite <- Q in *. rewrite <- (nanson G w Gw P).
  apply detR_meq. eapply meq_trans; [apply gram_meq, HJ'|]. eapply meq_trans; [apply meq_mulR, meq_trmul|].
  eapply meq_trans; [apply meq_sym, meq_mulA|]. apply meq_mulR. unfold G. apply meq_mulA.
Qed.
End F.
