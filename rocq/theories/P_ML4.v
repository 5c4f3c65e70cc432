(** MultiLinearGeometry::affine. *)
From Coq Require Import PeanoNat NArith Lia Bool List Reals Lra FunctionalExtensionality.
From Verif Require Import M_Type M_RefTopo M_RefGeo M_Matrix M_MultiLinear S_Topo S_RefGeo S_MultiLinear P_Type P_RefTopo P_RefTopo3 P_RSum P_RefGeo P_RefGeo2 P_RefGeo3 P_RefGeo4 P_Matrix2 P_ML1 P_ML2 P_ML3.
Import ListNotations.
Local Open Scope R_scope.

Lemma forN_rsum n (f : nat -> R) : forN n (fun i s => s + f i) 0 = rsum n f.
Proof. induction n; cbn [forN rsum]; [reflexivity|now rewrite IHn]. Qed.

Lemma rsum_ge_term n (f : nat -> R) i : (forall j, (j < n)%nat -> 0 <= f j) -> (i < n)%nat -> f i <= rsum n f.
Proof.
  induction n; intros H Hi; [lia|]. cbn [rsum]. assert (Q := H n ltac:(lia)). destruct (Nat.eq_dec i n).
  - subst. assert (0 <= rsum n f) by (apply rsum_nonneg; intros; apply H; lia). lra.
  - assert (f i <= rsum n f) by (apply IHn; [intros; apply H; lia|lia]). lra.
Qed.

Section A.
Variables (cdim : nat) (tol : R) (tid : N) (mydim : nat).
Notation T := (lt tid).
Definition edge (cs : nat -> Vec) (j : nat) : Vec := fun k => cs (nv (T j)) k - cs 0%nat k.
Definition shift (n : nat) (cs : nat -> Vec) : nat -> Vec := fun i => cs (n + i)%nat.
Definition bitp (d : nat) : bool := N.testbit (N.lor tid 1) (N.of_nat d).
Fixpoint affB (dim : nat) (cs : nat -> Vec) : bool :=
  match dim with
  | O => true
  | S d => affB d cs &&
           if bitp d then affB d (shift (nv (T d)) cs) &&
             Rltb (rsum d (fun i => norm2 cdim (fun k => edge (shift (nv (T d)) cs) i k - edge cs i k))) tol
           else true
  end.
Lemma T_S d : T (S d) = if bitp d then Pri (T d) else Pyr (T d).
Proof. reflexivity. Qed.
Lemma nv_mono j d : (j < d)%nat -> (nv (T j) < nv (T d))%nat.
Proof.
  assert (ST : forall d, (nv (T d) < nv (T (S d)))%nat).
  { intro e. rewrite T_S. assert (P := nv_pos (T e)). destruct (bitp e); cbn [nv]; lia. }
  induction 1; [apply ST|]. specialize (ST m). lia.
Qed.
Lemma affB_ext : forall dim cs cs', (forall i, (i < nv (T dim))%nat -> cs i = cs' i) -> affB dim cs = affB dim cs'.
Proof.
  induction dim; intros cs cs' E; [reflexivity|]. cbn [affB]. rewrite T_S in E.
  assert (P := nv_pos (T dim)). rewrite (IHdim cs cs') by (intros; apply E; destruct (bitp dim); cbn [nv]; lia).
  destruct (bitp dim); [|reflexivity]. cbn [nv] in E. f_equal.
  rewrite (IHdim (shift (nv (T dim)) cs) (shift (nv (T dim)) cs')) by (intros; unfold shift; apply E; lia). f_equal. f_equal.
  apply rsum_ext. intros i Hi. f_equal. apply functional_extensionality. intro k. unfold edge, shift.
  assert (M := nv_mono i dim Hi). rewrite !E by lia. reflexivity.
Qed.

Lemma affine_spec jk : forall dim cit jt, (dim <= mydim)%nat -> (nv (T dim) <= length cit)%nat ->
  let cs := fun i => nth i cit vzero in
  exists rest jt', ml_affine cdim tol tid mydim jk dim cit jt = Some (affB dim cs, rest, jt') /\
    (affB dim cs = true -> rest = skipn (nv (T dim)) cit /\
       forall j k, jt' j k = if andb (Nat.ltb j dim) (Nat.ltb k cdim) then edge cs j k else jt j k).
Proof.
  induction dim; intros cit jt Hd Hl cs.
  - change (T 0) with Pt in *. cbn [nv] in Hl. destruct cit as [|c cit]; [simpl in Hl; lia|]. cbn [ml_affine affB].
    eexists. eexists. split; [reflexivity|]. intros _. split; reflexivity.
  - cbn [ml_affine]. rewrite isPrism_level by assumption. fold (bitp dim). rewrite T_S in *.
    assert (P := nv_pos (T dim)).
    assert (Hl' : (nv (T dim) < length cit)%nat) by (destruct (bitp dim); cbn [nv] in Hl; lia).
    assert (EM : forall (X : Type) (f : Vec -> option X), match cit with [] => None | o :: _ => f o end = f (cs 0%nat)).
    { intros X f. unfold cs. destruct cit; [simpl in Hl'; lia|reflexivity]. }
    rewrite EM. clear EM. set (o := cs 0%nat) in *. assert (EO : o = cs 0%nat) by reflexivity. clearbody o.
    destruct (IHdim cit jt ltac:(lia) ltac:(lia)) as (rest & jt1 & E1 & F1). fold cs in E1, F1. rewrite E1. cbn [obind affB].
    destruct (affB dim cs) eqn:A1; cbn [negb andb]; [|eexists; eexists; split; [reflexivity|discriminate]].
    destruct (F1 eq_refl) as [-> J1]. clear F1 E1.
    rewrite (skipn_cons cit vzero) by assumption. change (nth (nv (T dim)) cit vzero) with (cs (nv (T dim))).
    assert (LAST : forall j k, mrow jt1 dim (vset cdim (fun k => cs (nv (T dim)) k - o k) (jt1 dim)) j k =
      if andb (Nat.ltb j (S dim)) (Nat.ltb k cdim) then edge cs j k else jt j k).
    { intros j k. unfold mrow, vset. destruct (Nat.eqb_spec j dim).
      - subst j. rewrite (proj2 (Nat.ltb_lt dim (S dim))) by lia. cbn [andb]. destruct (Nat.ltb k cdim) eqn:K.
        + unfold edge. now rewrite EO.
        + rewrite J1, K. now rewrite andb_false_r.
      - rewrite J1. replace (Nat.ltb j (S dim)) with (Nat.ltb j dim); [reflexivity|].
        destruct (Nat.ltb_spec j dim), (Nat.ltb_spec j (S dim)); auto; lia. }
    destruct (bitp dim) eqn:BP; cbn [nv] in *.
    + change (cs (nv (T dim)) :: skipn (S (nv (T dim))) cit) with (nth (nv (T dim)) cit vzero :: skipn (S (nv (T dim))) cit).
      rewrite <- (skipn_cons cit vzero) by assumption.
      destruct (IHdim (skipn (nv (T dim)) cit) jk ltac:(lia) ltac:(rewrite skipn_length; lia)) as (rest2 & jt2 & E2 & F2).
      assert (SH : (fun i => nth i (skipn (nv (T dim)) cit) vzero) = shift (nv (T dim)) cs).
      { apply functional_extensionality. intro i. unfold shift, cs. apply nth_skipn. }
      rewrite SH in E2, F2. rewrite E2. cbn [obind].
      destruct (affB dim (shift (nv (T dim)) cs)); cbn [negb andb]; [|eexists; eexists; split; [reflexivity|discriminate]].
      destruct (F2 eq_refl) as [-> J2]. clear F2 E2.
      rewrite forN_rsum.
      rewrite (rsum_ext dim _ (fun i => norm2 cdim (fun k => edge (shift (nv (T dim)) cs) i k - edge cs i k))).
      2:{ intros i Hi. unfold norm2. apply rsum_ext. intros k Hk. rewrite J1, J2.
          rewrite (proj2 (Nat.ltb_lt i dim)), (proj2 (Nat.ltb_lt k cdim)) by assumption. reflexivity. }
      destruct (Rltb _ tol); cbn [negb]; eexists; eexists; (split; [reflexivity|]); [|discriminate].
      intros _. split; [|exact LAST]. now rewrite skipn_add.
    + eexists; eexists; split; [reflexivity|]. intros _. split; [|exact LAST].
      now rewrite Nat.add_1_r.
Qed.

(** corners that are an affine image *)
Definition aff_image (dim : nat) (cs : nat -> Vec) (o : Vec) (M : Mat) : Prop :=
  forall i k, (i < nv (T dim))%nat -> (k < cdim)%nat -> cs i k = o k + rsum dim (fun j => M j k * rc (T dim) i j).

Lemma rc_edge : forall dim j, (j < dim)%nat -> forall l, rc (T dim) (nv (T j)) l = if Nat.eqb l j then 1 else 0.
Proof.
  induction dim; intros j Hj l; [lia|]. rewrite T_S.
  assert (R0 : forall d k, rc (T d) 0 k = 0).
  { induction d; intro k; [reflexivity|]. rewrite T_S. assert (P := nv_pos (T d)).
    destruct (bitp d); cbn [rc]; rewrite (proj2 (Nat.ltb_lt 0 (nv (T d)))) by lia; apply IHd. }
  destruct (Nat.eq_dec j dim) as [->|N].
  - destruct (bitp dim); cbn [rc]; rewrite Nat.ltb_irrefl, tdim_lt; unfold upd; destruct (Nat.eqb l dim); auto. rewrite Nat.sub_diag. apply R0.
  - assert (M := nv_mono j dim ltac:(lia)). destruct (bitp dim); cbn [rc]; rewrite (proj2 (Nat.ltb_lt _ _)) by exact M; apply IHdim; lia.
Qed.
Lemma rc_first : forall d k, rc (T d) 0 k = 0.
Proof.
  induction d; intro k; [reflexivity|]. rewrite T_S. assert (P := nv_pos (T d)).
  destruct (bitp d); cbn [rc]; rewrite (proj2 (Nat.ltb_lt 0 (nv (T d)))) by lia; apply IHd.
Qed.
Lemma image_origin dim cs o M k : aff_image dim cs o M -> (k < cdim)%nat -> cs 0%nat k = o k.
Proof.
  intros H Hk. rewrite (H 0%nat k) by (auto; apply nv_pos). rewrite rsum_0; [ring|]. intros j Hj. rewrite rc_first. ring.
Qed.
Lemma image_edge dim cs o M j k : aff_image dim cs o M -> (j < dim)%nat -> (k < cdim)%nat -> edge cs j k = M j k.
Proof.
  intros H Hj Hk. unfold edge. rewrite (image_origin dim cs o M k H Hk). rewrite (H (nv (T j)) k) by (auto; now apply nv_mono).
  rewrite (rsum_ext dim _ (fun l => if Nat.eqb l j then M l k else 0)).
  - rewrite rsum_delta by assumption. ring.
  - intros l Hl. rewrite rc_edge by assumption. destruct (Nat.eqb l j); ring.
Qed.
Lemma image_S d cs o M : aff_image (S d) cs o M ->
  aff_image d cs o M /\ (bitp d = true -> aff_image d (shift (nv (T d)) cs) (fun k => o k + M d k) M).
Proof.
  unfold aff_image. rewrite T_S. intro H. split.
  - intros i k Hi Hk. rewrite (H i k) by (auto; destruct (bitp d); cbn [nv]; lia). rewrite rsum_S.
    assert (E : rc (if bitp d then Pri (T d) else Pyr (T d)) i = rc (T d) i).
    { destruct (bitp d); cbn [rc]; now rewrite (proj2 (Nat.ltb_lt _ _)) by exact Hi. }
    rewrite E, rc_support by (rewrite tdim_lt; lia). ring.
  - intros B i k Hi Hk. rewrite B in H. unfold shift. rewrite (H (nv (T d) + i)%nat k) by (auto; cbn [nv]; lia). rewrite rsum_S.
    cbn [rc]. rewrite (proj2 (Nat.ltb_ge _ _)) by lia. replace (nv (T d) + i - nv (T d))%nat with i by lia. rewrite tdim_lt, upd_eq.
    rewrite (rsum_ext d _ (fun j => M j k * rc (T d) i j)); [ring|]. intros j Hj. now rewrite upd_ne by lia.
Qed.
Lemma image_affB : 0 < tol -> forall dim cs o M, aff_image dim cs o M -> affB dim cs = true.
Proof.
  intro Ht. induction dim; intros cs o M H; [reflexivity|]. destruct (image_S dim cs o M H) as [H1 H2]. cbn [affB].
  rewrite (IHdim cs o M H1). cbn [andb]. destruct (bitp dim) eqn:B; [|reflexivity]. specialize (H2 eq_refl).
  rewrite (IHdim _ _ _ H2). cbn [andb]. apply Rltb_true. rewrite rsum_0; [assumption|].
  intros i Hi. unfold norm2. apply rsum_0. intros k Hk. rewrite (image_edge dim cs o M), (image_edge _ _ _ _ i k H2) by assumption. ring.
Qed.
(** [affB] with error bound e for the squared differences *)
Lemma affB_error e : 0 <= e -> tol <= e * e -> forall dim cs, affB dim cs = true -> forall i k, (i < nv (T dim))%nat -> (k < cdim)%nat ->
  Rabs (cs i k - (cs 0%nat k + rsum dim (fun j => edge cs j k * rc (T dim) i j))) <= INR (dim * (dim - 1) / 2) * e.
Proof.
  intros He Hte. induction dim; intros cs H i k Hi Hk.
  - cbn in Hi. replace i with 0%nat by lia. cbn. rewrite Rplus_0_r, Rminus_diag_eq, Rabs_R0 by reflexivity. lra.
  - cbn [affB] in H. apply andb_true_iff in H. destruct H as [H1 H2].
    assert (ND : (S dim * (S dim - 1) / 2 = dim * (dim - 1) / 2 + dim)%nat).
    { replace (S dim * (S dim - 1))%nat with (dim * (dim - 1) + dim * 2)%nat by (destruct dim; [reflexivity|]; cbn [Nat.sub]; rewrite ?Nat.sub_0_r; ring). now rewrite Nat.div_add by lia. }
    rewrite ND, plus_INR. assert (P0 : 0 <= INR dim * e) by (apply Rmult_le_pos; [apply pos_INR|assumption]).
    rewrite T_S in *. rewrite rsum_S.
    destruct (Nat.lt_ge_cases i (nv (T dim))) as [I|I].
    + assert (Q := IHdim cs H1 i k I Hk).
      assert (E : rc (if bitp dim then Pri (T dim) else Pyr (T dim)) i = rc (T dim) i).
      { destruct (bitp dim); cbn [rc]; now rewrite (proj2 (Nat.ltb_lt _ _)) by exact I. }
      rewrite E, (rc_support _ _ dim) by (rewrite tdim_lt; lia). rewrite Rmult_0_r, Rplus_0_r. lra.
    + destruct (bitp dim) eqn:B.
      * cbn [nv] in Hi. apply andb_true_iff in H2. destruct H2 as [H2 H3]. apply Rltb_true in H3.
        set (i' := (i - nv (T dim))%nat). assert (Ei : i = (nv (T dim) + i')%nat) by (unfold i'; lia).
        assert (Q := IHdim (shift (nv (T dim)) cs) H2 i' k ltac:(unfold i'; lia) Hk).
        unfold shift at 1 2 in Q. rewrite Nat.add_0_r, <- Ei in Q.
        cbn [rc]. rewrite (proj2 (Nat.ltb_ge _ _)) by lia. fold i'. rewrite tdim_lt, upd_eq.
        rewrite (rsum_ext dim _ (fun j => edge cs j k * rc (T dim) i' j)) by (intros j Hj; now rewrite upd_ne by lia).
        set (A := rsum dim (fun j => edge cs j k * rc (T dim) i' j)) in *.
        set (A' := rsum dim (fun j => edge (shift (nv (T dim)) cs) j k * rc (T dim) i' j)) in *.
        assert (D : Rabs (A' - A) <= INR dim * e).
        { unfold A, A'. rewrite <- rsum_minus.
          assert (BD : forall n, (n <= dim)%nat -> Rabs (rsum n (fun j => edge (shift (nv (T dim)) cs) j k * rc (T dim) i' j - edge cs j k * rc (T dim) i' j)) <= INR n * e).
          { induction n; intro Hn; cbn [rsum]; [rewrite Rabs_R0; simpl; lra|]. rewrite S_INR.
            assert (T1 := Rabs_triang (rsum n (fun j => edge (shift (nv (T dim)) cs) j k * rc (T dim) i' j - edge cs j k * rc (T dim) i' j))
              (edge (shift (nv (T dim)) cs) n k * rc (T dim) i' n - edge cs n k * rc (T dim) i' n)).
            specialize (IHn ltac:(lia)).
            assert (T2 : Rabs (edge (shift (nv (T dim)) cs) n k * rc (T dim) i' n - edge cs n k * rc (T dim) i' n) <= e).
            { rewrite <- Rmult_minus_distr_r, Rabs_mult.
              assert (R1 : Rabs (rc (T dim) i' n) <= 1).
              { assert (RR : forall X j l, rc X j l = 0 \/ rc X j l = 1).
                { induction X as [|b IH|b IH]; intros j l; cbn [rc]; [left; reflexivity| |]; destruct (Nat.ltb j (nv b)); auto; unfold upd; destruct (Nat.eqb l (tdim b)); auto; left; reflexivity. }
                destruct (RR (T dim) i' n) as [-> | ->]; rewrite ?Rabs_R0, ?Rabs_R1; lra. }
              assert (R2 : Rabs (edge (shift (nv (T dim)) cs) n k - edge cs n k) <= e).
              { apply Rabs_le.
                assert (SQ : (edge (shift (nv (T dim)) cs) n k - edge cs n k) * (edge (shift (nv (T dim)) cs) n k - edge cs n k) <= e * e).
                { apply Rle_trans with (2 := Hte). apply Rlt_le, Rle_lt_trans with (2 := H3).
                  apply Rle_trans with (norm2 cdim (fun k => edge (shift (nv (T dim)) cs) n k - edge cs n k)).
                  - unfold norm2. apply (rsum_ge_term cdim (fun i => (edge (shift (nv (T dim)) cs) n i - edge cs n i) * (edge (shift (nv (T dim)) cs) n i - edge cs n i))); [intros; apply Rle_0_sqr|assumption].
                  - apply (rsum_ge_term dim (fun n => norm2 cdim (fun k => edge (shift (nv (T dim)) cs) n k - edge cs n k))); [|lia].
                    intros j Hj. unfold norm2. apply rsum_nonneg. intros; apply Rle_0_sqr. }
                nra. }
              assert (Q1 := Rabs_pos (rc (T dim) i' n)). assert (Q2 := Rabs_pos (edge (shift (nv (T dim)) cs) n k - edge cs n k)). nra. }
            lra. }
          apply BD. lia. }
        replace (cs i k - (cs 0%nat k + (A + edge cs dim k * 1))) with ((cs i k - (cs (nv (T dim)) k + A')) + (A' - A)) by (unfold edge; ring).
        eapply Rle_trans; [apply Rabs_triang|]. rewrite Rmult_plus_distr_r. apply Rplus_le_compat; assumption.
      * cbn [nv] in Hi. assert (i = nv (T dim)) by lia. subst i. cbn [rc]. rewrite Nat.ltb_irrefl, tdim_lt, upd_eq.
        rewrite rsum_0 by (intros j Hj; rewrite upd_ne by lia; unfold vzero; ring).
        replace (_ - _) with 0 by (unfold edge; ring). rewrite Rabs_R0.
        apply Rmult_le_pos; [|assumption]. rewrite <- plus_INR. apply pos_INR.
Qed.
End A.
