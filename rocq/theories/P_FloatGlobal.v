(** C68: the floating point recursion computes a sum of corners with explicit weights; the
    weights at the reference corners. *)
From Coq Require Import PeanoNat NArith ZArith Lia Bool List Reals Lra FunctionalExtensionality.
From Flocq Require Import Core IEEE754.BinarySingleNaN.
From Verif Require Import M_Type M_RefTopo M_RefGeo M_Matrix M_MultiLinear M_Float M_FloatGlobal S_Topo S_MultiLinear
  P_Type P_RefTopo P_RSum P_RefGeo2 P_ML1 P_ML2 P_Float P_FloatNear.
Import ListNotations.

Section W.
Variables (prec emax : Z).
Context (Hp : Prec_gt_0 prec) (He : Prec_lt_emax prec emax).
Notation float := (binary_float prec emax).
Notation FVec := (nat -> float).
Notation add' := (fadd prec emax Hp He).
Notation sub' := (fsub prec emax Hp He).
Notation mul' := (fmul prec emax Hp He).
Notation div' := (fdiv prec emax Hp He).
Notation one := (ofZ prec emax Hp He 1).
Notation zero := (ofZ prec emax Hp He 0).
Notation away' := (faway prec emax Hp He).

(** the weights in the order of the corners *)
Fixpoint fw (T : Topo) (df : float) (x : FVec) (rf : float) : list float :=
  match T with
  | Pt => [rf]
  | Pri b =>
      let xn := mul' df (x (tdim b)) in
      fw b df x (mul' rf (sub' one xn)) ++ fw b df x (mul' rf xn)
  | Pyr b =>
      let xn := mul' df (x (tdim b)) in
      let cxn := sub' one xn in
      (if away' cxn then fw b (div' df cxn) x (mul' rf cxn) else fw b df x zero) ++ [mul' rf xn]
  end.
Lemma fw_length T : forall df x rf, length (fw T df x rf) = nv T.
Proof.
  induction T as [|b IH|b IH]; intros df x rf; cbn [fw nv]; [reflexivity| |]; cbv zeta; rewrite app_length.
  - now rewrite !IH.
  - cbn [length]. f_equal. now destruct (away' _); rewrite IH.
Qed.

Definition step k (acc : float) (p : float * FVec) : float := add' acc (mul' (fst p) (snd p k)).
Definition facc k (acc : float) (l : list (float * FVec)) : float := fold_left (step k) l acc.
Definition fcomb (add : bool) (l : list (float * FVec)) (y : FVec) (k : nat) : float :=
  if add then facc k (y k) l
  else match l with [] => y k | p :: l => facc k (mul' (fst p) (snd p k)) l end.

Lemma facc_app k acc l l' : facc k acc (l ++ l') = facc k (facc k acc l) l'.
Proof. apply fold_left_app. Qed.
Lemma fcomb_app add l l' y k : (l <> [])%nat -> fcomb add (l ++ l') y k = facc k (fcomb add l y k) l'.
Proof. intro N. destruct add; [apply facc_app|]. destruct l; [easy|]. apply facc_app. Qed.
Lemma combine_app {A B} (l1 l2 : list A) : forall (c : list B), (length l1 <= length c)%nat ->
  combine (l1 ++ l2) c = combine l1 c ++ combine l2 (skipn (length l1) c).
Proof. induction l1; intros [|b c] H; simpl in *; try lia; try reflexivity. now rewrite IHl1 by lia. Qed.
Lemma combine_fw_ne T df x rf (c : list FVec) : (nv T <= length c)%nat -> combine (fw T df x rf) c <> [].
Proof.
  intros H E. apply (f_equal (@length _)) in E. rewrite combine_length, fw_length in E. pose proof (nv_pos T). simpl in E. lia.
Qed.

Variable cdim : nat.
Lemma fset_fset a b y : fset prec emax cdim a (fset prec emax cdim b y) = fset prec emax cdim a y.
Proof. apply functional_extensionality. intro k. unfold fset. now destruct (Nat.ltb k cdim). Qed.
Lemma fset_ext a b y : (forall k, (k < cdim)%nat -> a k = b k) -> fset prec emax cdim a y = fset prec emax cdim b y.
Proof. intro H. apply functional_extensionality. intro k. unfold fset. destruct (Nat.ltb_spec k cdim); auto. Qed.
Lemma fset_in a y k : (k < cdim)%nat -> fset prec emax cdim a y k = a k.
Proof. intro H. unfold fset. now rewrite (proj2 (Nat.ltb_lt k cdim)). Qed.

Variables (tid : N) (mydim : nat).
Lemma fglob_spec : forall dim add cit df x rf y, (dim <= mydim)%nat -> (nv (lt tid dim) <= length cit)%nat ->
  fml_glob prec emax Hp He cdim tid mydim dim add cit df x rf y =
  Some (skipn (nv (lt tid dim)) cit, fset prec emax cdim (fcomb add (combine (fw (lt tid dim) df x rf) cit) y) y).
Proof.
  induction dim; intros add cit df x rf y Hd Hl.
  - change (lt tid 0) with Pt in *. cbn [fml_glob nv fw] in *. destruct cit as [|o cit]; [simpl in Hl; lia|].
    cbn [skipn combine]. now destruct add.
  - unfold lt in *. cbn [topo_of] in *. cbn [fml_glob]. rewrite isPrism_level by assumption.
    set (b := topo_of (N.lor tid 1) dim) in *.
    assert (Db : tdim b = dim) by (apply tdim_topo).
    destruct (N.testbit (N.lor tid 1) (N.of_nat dim)); cbn [nv fw] in *; cbv zeta; rewrite ?Db.
    + rewrite IHdim by lia. cbn [obind]. rewrite IHdim by (rewrite ?skipn_length; lia).
      rewrite skipn_add. do 2 f_equal. rewrite fset_fset. apply fset_ext. intros k Hk.
      rewrite combine_app by (rewrite fw_length; lia). rewrite fcomb_app by (apply combine_fw_ne; lia).
      unfold fcomb at 1. rewrite fset_in by assumption. now rewrite fw_length.
    + assert (SK := skipn_cons cit (fun _ => zero) (nv b) ltac:(lia)).
      destruct (away' (sub' one (mul' df (x dim)))); rewrite IHdim by lia; cbn [obind]; rewrite SK;
      (replace (nv b + 1)%nat with (S (nv b)) by lia); do 2 f_equal;
      apply functional_extensionality; intro k; unfold faxpy, fset;
      (destruct (Nat.ltb_spec k cdim) as [Hk|Hk]; [|reflexivity]);
      rewrite combine_app by (rewrite fw_length; lia);
      rewrite fcomb_app by (apply combine_fw_ne; lia); rewrite fw_length, SK; reflexivity.
Qed.
Lemma fglobal_spec jv corners x : length corners = nv (lt tid mydim) ->
  fmlg_global prec emax Hp He cdim tid mydim jv corners x =
  Some (fset prec emax cdim (fcomb false (combine (fw (lt tid mydim) one x one) corners) jv) jv).
Proof. intros H. unfold fmlg_global. now rewrite fglob_spec by lia. Qed.
End W.
