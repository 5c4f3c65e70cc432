(** The sign of the Jacobian determinant of a multilinear map is constant if it does not vanish. *)
From Coq Require Import NArith PeanoNat Bool List Lia Reals Lra FunctionalExtensionality.
From Coq Require Import Ranalysis5.
From Coquelicot Require Import Coquelicot.
From Verif Require Import M_Type M_RefTopo M_RefGeo M_Matrix M_MultiLinear S_Topo S_RefGeo S_MultiLinear P_RSum P_RefGeo P_RefGeo2 P_RefGeo3 P_Det P_MxBridge P_ML1 P_ML2 P_Col1 P_ColMap.
Import ListNotations.
Local Open Scope R_scope.

Definition cont (f : R -> R) (t : R) : Prop := continuous f t.
Lemma cont_const c t : cont (fun _ => c) t. Proof. apply continuous_const. Qed.
Lemma cont_plus f g t : cont f t -> cont g t -> cont (fun t => f t + g t) t.
Proof. apply (continuous_plus (V := R_NormedModule)). Qed.
Lemma cont_minus f g t : cont f t -> cont g t -> cont (fun t => f t - g t) t.
Proof. apply (continuous_minus (V := R_NormedModule)). Qed.
Lemma cont_mult f g t : cont f t -> cont g t -> cont (fun t => f t * g t) t.
Proof. apply (continuous_mult (K := R_AbsRing)). Qed.
Lemma cont_div f g t : cont f t -> cont g t -> g t <> 0 -> cont (fun t => f t / g t) t.
Proof. intros Hf Hg N. apply cont_mult; [exact Hf|]. apply continuous_comp; [exact Hg|]. apply continuity_pt_filterlim. apply continuity_pt_inv; [|exact N]. apply derivable_continuous_pt, derivable_pt_id. Qed.
Lemma cont_rsum n (f : nat -> R -> R) t : (forall i, (i < n)%nat -> cont (f i) t) -> cont (fun t => rsum n (fun i => f i t)) t.
Proof. induction n as [|n IH]; intro H; cbn [rsum]; [apply cont_const|]. apply cont_plus; [apply IH; auto|apply H; lia]. Qed.
Lemma cont_ext f g t : (forall t, f t = g t) -> cont f t -> cont g t.
Proof. intros E H. replace g with f by (now apply functional_extensionality). exact H. Qed.
Lemma cont_det n : forall (A : R -> Mat) t, (forall i j, (i < n)%nat -> (j < n)%nat -> cont (fun t => A t i j) t) -> cont (fun t => detR n (A t)) t.
Proof.
  induction n as [|n IH]; intros A t H.
  - apply (cont_ext (fun _ => 1)); [intro; now rewrite detR_0|apply cont_const].
  - apply (cont_ext (fun t => rsum (S n) (fun j => (-1)^j * A t 0%nat j * detR n (minor0 (A t) j)))); [intro; now rewrite detR_expand|].
    apply cont_rsum. intros j Hj. apply cont_mult; [apply cont_mult; [apply cont_const|apply H; lia]|].
    apply IH. intros i k Hi Hk. unfold minor0. apply H; [lia|]. destruct (Nat.ltb k j); lia.
Qed.

Lemma base_cont b (x : R -> Vec) t : (forall k, (k < S (tdim b))%nat -> cont (fun t => x t k) t) -> 0 < Rabs (1 - x t (tdim b)) ->
  forall k, (k < tdim b)%nat -> cont (fun t => base b (x t) k) t.
Proof.
  intros H N k Hk. unfold base. apply cont_div; [apply H; lia|apply cont_minus; [apply cont_const|apply H; lia]|].
  intro E. rewrite E, Rabs_R0 in N. lra.
Qed.
Lemma phi_cont T : forall c (x : R -> Vec) t, (forall k, (k < tdim T)%nat -> cont (fun t => x t k) t) -> smooth 0 T (x t) -> cont (fun t => phi T c (x t)) t.
Proof.
  induction T as [|b IH|b IH]; intros c x t H Hs; cbn [phi smooth tdim] in *.
  - apply cont_const.
  - apply cont_plus; apply cont_mult; try (apply IH; auto; fail); [apply cont_minus; [apply cont_const|]|]; apply H; lia.
  - apply cont_plus; (apply cont_mult; [try (apply cont_minus; [apply cont_const|]); apply H; lia|]); [|apply cont_const].
    destruct Hs as [->|[N Hs]]; [apply cont_const|]. apply (IH c (fun t => base b (x t))); [now apply base_cont|exact Hs].
Qed.
Lemma dphi_cont T : forall c j (x : R -> Vec) t, (forall k, (k < tdim T)%nat -> cont (fun t => x t k) t) -> smooth 0 T (x t) -> cont (fun t => dphi T c j (x t)) t.
Proof.
  induction T as [|b IH|b IH]; intros c j x t H Hs; cbn [dphi smooth tdim] in *.
  - apply cont_const.
  - destruct (Nat.ltb j (tdim b)).
    + apply cont_plus; apply cont_mult; try (apply IH; auto; fail); [apply cont_minus; [apply cont_const|]|]; apply H; lia.
    + apply cont_minus; apply phi_cont; auto.
  - destruct Hs as [->|[N Hs]]; [cbn; apply cont_const|].
    assert (B : forall k, (k < tdim b)%nat -> cont (fun t => base b (x t) k) t) by (now apply base_cont).
    destruct (Nat.ltb j (tdim b)).
    + apply (IH c j (fun t => base b (x t))); [exact B|exact Hs].
    + apply cont_plus; [apply cont_minus; [apply cont_const|]|].
      * apply (phi_cont b c (fun t => base b (x t))); [exact B|exact Hs].
      * apply cont_rsum. intros l Hl. apply cont_mult; [now apply B|]. apply (IH c l (fun t => base b (x t))); [exact B|exact Hs].
Qed.

(** the smooth inside points are star-shaped about the first corner *)
Lemma insideT_scal T : forall x a s, 0 <= s <= 1 -> insideT T x a -> insideT T (fun k => s * x k) (s * a).
Proof.
  induction T as [|b IH|b IH]; intros x a s Hs H; cbn [insideT] in *; [exact I| |]; destruct H as [[H1 H2] H3].
  - split; [|now apply IH]. split; nra.
  - split; [split; nra|]. replace (s * a - s * x (tdim b)) with (s * (a - x (tdim b))) by ring. now apply IH.
Qed.
Lemma insideT_mono T : forall x a a', a <= a' -> insideT T x a -> insideT T x a'.
Proof.
  induction T as [|b IH|b IH]; intros x a a' Ha H; cbn [insideT] in *; [exact I| |]; destruct H as [[H1 H2] H3].
  - split; [lra|]. now apply (IH x a).
  - split; [lra|]. apply (IH x (a - x (tdim b))); [lra|assumption].
Qed.
Lemma smooth_scal T : forall x s, 0 <= s <= 1 -> insideT T x 1 -> smooth 0 T x -> smooth 0 T (fun k => s * x k).
Proof.
  induction T as [|b IH|b IH]; intros x s Hs Hi H; cbn [smooth] in *; [exact I| |].
  - apply IH; [assumption| |assumption]. apply Hi.
  - destruct H as [H|[N H]]; [now left|right].
    assert (L : x (tdim b) < 1).
    { destruct Hi as [[_ L] _]. destruct (Req_dec (x (tdim b)) 1) as [E|]; [|lra]. rewrite E, Rminus_diag_eq, Rabs_R0 in N by reflexivity. lra. }
    assert (L0 : 0 <= x (tdim b)) by apply Hi.
    split; [apply Rabs_pos_lt; nra|].
    replace (fun k => s * x k / (1 - s * x (tdim b))) with (fun k => (s * (1 - x (tdim b)) / (1 - s * x (tdim b))) * (x k / (1 - x (tdim b)))).
    2:{ apply functional_extensionality. intro k. field. split; nra. }
    assert (P : 0 < 1 - s * x (tdim b)) by nra.
    apply (IH (fun k => x k / (1 - x (tdim b)))); [|apply insideT_base; [exact Hi|lra]|exact H].
    split.
    + apply Rmult_le_pos; [nra|]. left. now apply Rinv_0_lt_compat.
    + apply (Rmult_le_reg_r (1 - s * x (tdim b))); [exact P|]. unfold Rdiv. rewrite Rmult_assoc, Rinv_l by lra. nra.
Qed.
Lemma star T x s : 0 <= s <= 1 -> insideT T x 1 -> smooth 0 T x -> insideT T (fun k => s * x k) 1 /\ smooth 0 T (fun k => s * x k).
Proof.
  intros Hs Hi H. split; [|now apply smooth_scal]. apply (insideT_mono T _ (s * 1)); [lra|]. now apply insideT_scal.
Qed.

Lemma orient T n (c : nat -> nat -> R) (F := fun x => detR n (fun j k => dphi T (c k) j x)) :
  (forall x, insideT T x 1 -> smooth 0 T x -> F x <> 0) ->
  exists s, (s = 1 \/ s = -1) /\ forall x, insideT T x 1 -> smooth 0 T x -> 0 < s * F x.
Proof.
  intro H.
  assert (K : forall x, insideT T x 1 -> smooth 0 T x -> 0 < F (fun _ => 0) * F x).
  { intros x Hi Hs.
    set (h := fun t : R => F (fun k => t * x k)).
    assert (E0 : h 0 = F (fun _ => 0)) by (unfold h; f_equal; apply functional_extensionality; intro; ring).
    assert (E1 : h 1 = F x) by (unfold h; f_equal; apply functional_extensionality; intro; ring).
    rewrite <- E0, <- E1.
    assert (HN : forall t, 0 <= t <= 1 -> h t <> 0) by (intros t Ht; apply H; now apply star).
    assert (HC : forall t, 0 <= t <= 1 -> continuity_pt h t).
    { intros t Ht. apply continuity_pt_filterlim. apply cont_det. intros i j _ _. apply (dphi_cont T (c j) i (fun t k => t * x k)).
      - intros k _. apply cont_mult; [apply continuous_id|apply cont_const].
      - now apply star. }
    destruct (Rlt_or_le 0 (h 0 * h 1)) as [L|L]; [exact L|exfalso].
    assert (A0 := HN 0 ltac:(lra)). assert (A1 := HN 1 ltac:(lra)).
    destruct (Rdichotomy _ _ A0) as [B0|B0], (Rdichotomy _ _ A1) as [B1|B1]; try nra.
    - destruct (IVT_interv h 0 1 HC ltac:(lra) B0 B1) as (z & Hz & EZ). exact (HN z Hz EZ).
    - destruct (IVT_interv (fun t => - h t) 0 1) as (z & Hz & EZ); [|lra|lra|lra|].
      + intros t Ht. apply continuity_pt_opp. now apply HC.
      + apply (HN z Hz). lra. }
  destruct (Rlt_or_le 0 (F (fun _ => 0))) as [L|L].
  - exists 1. split; [now left|]. intros x Hi Hs. specialize (K x Hi Hs). nra.
  - exists (-1). split; [now right|]. intros x Hi Hs. specialize (K x Hi Hs). nra.
Qed.
