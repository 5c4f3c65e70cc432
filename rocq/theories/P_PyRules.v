(** Proofs about the Python layer. *)
From Coq Require Import NArith ZArith PeanoNat Bool List Lia Reals Lra.
From Verif Require Import M_Type M_TypeIndex M_TypeString M_RefGeo M_RefTopo M_QuadFactory M_Quadrature M_Container
  M_PyRules S_Quad S_QuadND P_Type P_Type2 P_QuadFactory P_QuadAll T_TypeString T_Quad.
Import ListNotations.

(** ** Dictionaries *)
Section Dict.
Context {K V : Type} (hash : K -> Z) (eqb : K -> K -> bool).

Lemma dget_in (d : list (K * V)) k v : dget hash eqb d k = Some v ->
  exists k', In (k', v) d /\ same_key hash eqb k' k = true.
Proof.
  unfold dget. destruct (find _ d) as [[k' v']|] eqn:E; [|discriminate]. cbn. intros X. injection X as <-.
  apply find_some in E. exists k'. exact E.
Qed.
Lemma dset_miss (d : list (K * V)) k v : dget hash eqb d k = None -> dset hash eqb d k v = d ++ [(k, v)].
Proof.
  unfold dget. induction d as [|[k' v'] d IH]; cbn [find dset fst option_map app]; [reflexivity|].
  destruct (same_key hash eqb k' k); [discriminate|]. intros H. now rewrite IH.
Qed.
Lemma dget_app (d e : list (K * V)) k v : dget hash eqb d k = Some v -> dget hash eqb (d ++ e) k = Some v.
Proof.
  unfold dget. induction d as [|[k' v'] d IH]; cbn [find fst option_map app]; [discriminate|].
  destruct (same_key hash eqb k' k); auto.
Qed.
Lemma dget_new (d : list (K * V)) k v : dget hash eqb d k = None -> same_key hash eqb k k = true ->
  dget hash eqb (d ++ [(k, v)]) k = Some v.
Proof.
  unfold dget. induction d as [|[k' v'] d IH]; cbn [find fst option_map app].
  - intros _ ->. reflexivity.
  - destruct (same_key hash eqb k' k); [discriminate|auto].
Qed.
Lemma dget_ext (d : list (K * V)) k k2 : (forall k', same_key hash eqb k' k = same_key hash eqb k' k2) ->
  dget hash eqb d k = dget hash eqb d k2.
Proof. intros H. unfold dget. induction d as [|[k' v'] d IH]; cbn [find fst]; [reflexivity|]. rewrite <- H. now destruct (same_key hash eqb k' k). Qed.
End Dict.

Lemma eqb_cases s t : gt_none t = false -> gt_eqb s t = true ->
  gt_none s = false /\ gt_dim s = gt_dim t /\ N.shiftr (gt_id s) 1 = N.shiftr (gt_id t) 1.
Proof.
  intros Nt E. unfold gt_eqb in E. rewrite Nt in E. apply andb_prop in E. destruct E as [E1 E2]. apply eqb_prop in E1.
  rewrite E1 in *. cbn [orb] in E2. apply andb_prop in E2. destruct E2 as [E2 E3].
  apply Nat.eqb_eq in E2. apply N.eqb_eq in E3. auto.
Qed.

(** ** The geometry type of the rules of equal requests *)
Lemma factory_same_type lapack d : forall s t p qt x y, gt_none s = gt_none t -> gt_dim s = gt_dim t ->
  N.shiftr (gt_id s) 1 = N.shiftr (gt_id t) 1 ->
  factory lapack d s p qt = Some x -> factory lapack d t p qt = Some y -> gt_eqb (ru_type x) (ru_type y) = true.
Proof.
  intros s t p qt x y A D B Hx Hy.
  destruct d as [|[|d]].
  - cbn [factory choose] in Hx, Hy. destruct (isVertex s); [|discriminate]. destruct (isVertex t); [|discriminate].
    injection Hx as <-. injection Hy as <-. apply gt_eqb_refl.
  - cbn [factory choose] in Hx, Hy. unfold isLine in *. rewrite D in Hx. destruct (Nat.eqb (gt_dim t) 1); [|discriminate].
    destruct (Nat.ltb qt qtSize); [|discriminate]. rewrite Hx in Hy. injection Hy as <-. apply gt_eqb_refl.
  - assert (TP : forall t x, tensorPart lapack d t p qt = Some x -> ru_type x = GT2 (gt_id t) (S (S d))).
    { clear. intros t x. unfold tensorPart. destruct (if inRange _ _ _ _ then _ else _) as [b|]; [|discriminate].
      destruct (tpPrism _ _); [destruct (fetch1D _ _ _)|destruct (Nat.eqb _ _); [destruct (jacobiN _ _ _)|destruct (fetch1D _ _ _)]];
        cbn [option_map]; intros E; try discriminate; injection E as <-; reflexivity. }
    assert (TT : tensorPart lapack d s p qt = Some x -> tensorPart lapack d t p qt = Some y -> gt_eqb (ru_type x) (ru_type y) = true).
    { intros E1 E2. rewrite (TP _ _ E1), (TP _ _ E2). unfold gt_eqb, GT2. cbn [gt_none gt_dim gt_id]. rewrite B, Nat.eqb_refl, N.eqb_refl. reflexivity. }
    rewrite factory_SS, choose_SS in Hx, Hy. rewrite (isSimplex_same s t A B), (isPrismT_same s t A D B) in Hx.
    destruct d as [|[|d]].
    + destruct (isSimplex t && _ && _); [|now apply TT]. rewrite Hx in Hy. injection Hy as <-. apply gt_eqb_refl.
    + destruct (isSimplex t && _ && _); [rewrite Hx in Hy; injection Hy as <-; apply gt_eqb_refl|].
      destruct (isPrismT t && _ && _); [rewrite Hx in Hy; injection Hy as <-; apply gt_eqb_refl|now apply TT].
    + now apply TT.
Qed.

Definition same_value (x y : Rule) : Prop :=
  ru_order x = ru_order y /\ ru_points x = ru_points y /\ gt_eqb (ru_type x) (ru_type y) = true.

Section Layer.
Variable hpair : Z -> Z -> Z.
Variable hnum : Z -> Z.
Variable objHash : nat -> Z.
Variable load : nat -> bool.
Variable lapack : Z -> nat -> option (list (R * R)).
Let rule := call_rule load lapack.
Let quadrule := quadratureRule hpair hnum objHash load lapack.
Let rhash := rkey_hash hpair hnum objHash.

Lemma call_rule_same s t p : gt_none t = false -> gt_eqb s t = true ->
  match rule (KType s) (OInt p), rule (KType t) (OInt p) with
  | Ret x, Ret y => same_value x y
  | Raise e, Raise e' => e = e'
  | Undef, Undef => True
  | _, _ => False
  end.
Proof.
  intros Nt E. destruct (eqb_cases s t Nt E) as (Ns & D & B). unfold rule. cbn [call_rule]. rewrite D.
  destruct (load (gt_dim t)); [|reflexivity]. cbn [module_rule]. rewrite D.
  destruct ((p <? INT_MIN)%Z || (INT_MAX <? p)%Z); [reflexivity|]. rewrite Nat.eqb_refl. cbn [negb].
  assert (IR : inRange (gt_dim t) s p qtLegendre = inRange (gt_dim t) t p qtLegendre).
  { unfold inRange. destruct (gt_dim t) eqn:Dt; [reflexivity|]. rewrite (maxOrder_same _ s t) by congruence. reflexivity. }
  rewrite IR. destruct (inRange (gt_dim t) t p qtLegendre); cbn [negb]; [|exact I].
  assert (F := factory_same lapack (gt_dim t) s t p qtLegendre ltac:(congruence) D B).
  destruct (factory lapack (gt_dim t) s p qtLegendre) as [x|] eqn:X, (factory lapack (gt_dim t) t p qtLegendre) as [y|] eqn:Y;
    cbn [option_map] in F; try discriminate; [|reflexivity].
  injection F as F1 F2. split; [exact F1|]. split; [exact F2|].
  eapply factory_same_type; [| | |exact X|exact Y]; [congruence|exact D|exact B].
Qed.

Definition RInv (s : RState) : Prop :=
  (forall k v, In (k, v) (rs_dict s) ->
     (fst v < rs_next s)%nat /\ exists t p, k = (KType t, OInt p) /\ rule (KType t) (OInt p) = Ret (snd v))
  /\ NoDup (map (fun kv => fst (snd kv)) (rs_dict s)).

Lemma rule_ret k o r : rule k o = Ret r -> exists t p, k = KType t /\ o = OInt p.
Proof.
  unfold rule. destruct k as [t|n|n]; cbn [call_rule]; try discriminate. destruct (load (gt_dim t)); [|discriminate].
  destruct o as [p|p]; cbn [module_rule]; [|discriminate]. intros _. eauto.
Qed.

Lemma step_inv s g o s' c : RInv s -> quadrule s g o = (s', c) -> RInv s'.
Proof.
  intros [I1 I2]. unfold quadrule, quadratureRule. cbn [fst].
  destruct (dget _ _ (rs_dict s) _) as [v|] eqn:E; [intros X; injection X as <- <-; now split|].
  fold rule. destruct (rule (attr_type g) o) as [r|e|] eqn:C; intros X; injection X as <- <-; try now split.
  rewrite (dset_miss _ _ _ _ _ E). split; cbn [rs_dict rs_next].
  - intros k v H. apply in_app_or in H. destruct H as [H|[H|[]]].
    + destruct (I1 k v H) as (A & B). split; [lia|exact B].
    + injection H as <- <-. cbn [fst snd]. split; [lia|]. destruct (rule_ret _ _ _ C) as (t & p & E1 & E2).
      rewrite E1, E2 in *. eauto.
  - rewrite map_app. cbn [map fst snd]. set (L := map _ (rs_dict s)) in *.
    assert (NL : ~ In (rs_next s) L).
    { intros H. apply in_map_iff in H. destruct H as ([k v] & H1 & H2). destruct (I1 k v H2) as (A & _). cbn [fst snd] in H1. lia. }
    apply NoDup_rev in I2. rewrite <- (rev_involutive L). change [rs_next s] with (rev [rs_next s]). rewrite <- rev_app_distr.
    apply NoDup_rev. cbn [app]. constructor; [now rewrite <- in_rev|exact I2].
Qed.

Lemma step_ext s g o s' c : quadrule s g o = (s', c) -> exists e, rs_dict s' = rs_dict s ++ e.
Proof.
  unfold quadrule, quadratureRule. cbn [fst].
  destruct (dget _ _ (rs_dict s) _) as [v|] eqn:E; [intros X; injection X as <- <-; exists []; now rewrite app_nil_r|].
  fold rule. destruct (rule (attr_type g) o) as [r|e|] eqn:C; intros X; injection X as <- <-;
    try (exists []; now rewrite app_nil_r).
  rewrite (dset_miss _ _ _ _ _ E). eexists. reflexivity.
Qed.

Lemma runs_inv s0 l s : RInv s0 -> runs hpair hnum objHash load lapack s0 l s -> RInv s.
Proof. intros I0 H. induction H as [|l s g o s' c H IH E Hc]; [exact I0|]. eapply step_inv; [exact IH|exact E]. Qed.
Lemma runs_ext s0 l s : runs hpair hnum objHash load lapack s0 l s -> exists e, rs_dict s = rs_dict s0 ++ e.
Proof.
  intros H. induction H as [|l s g o s' c H (e & IH) E Hc]; [exists []; now rewrite app_nil_r|].
  apply step_ext in E. destruct E as (e' & E). exists (e ++ e'). now rewrite E, IH, app_assoc.
Qed.
Lemma init_inv : RInv rs_init.
Proof. split; [intros k v []|constructor]. Qed.

Lemma rkey_same t t2 o o2 : gt_none t = false -> gt_eqb t t2 = true -> order_val o = order_val o2 ->
  forall k', same_key rhash rkey_eqb k' (KType t, o) = same_key rhash rkey_eqb k' (KType t2, o2).
Proof.
  intros Nt E O [k' o']. unfold same_key, rhash, rkey_hash, rkey_eqb. cbn [fst snd key_hash].
  rewrite <- (C61_hash t t2 Nt E), O. f_equal. unfold order_eqb. rewrite O. f_equal.
  destruct k' as [s|n|n]; cbn [key_eqb]; try reflexivity. apply eq_iff_eq_true. split; intros H.
  - eapply gt_eqb_trans; [exact H|exact E].
  - eapply gt_eqb_trans; [exact H|now apply gt_eqb_sym].
Qed.
Lemma rkey_refl t o : same_key rhash rkey_eqb (KType t, o) (KType t, o) = true.
Proof. unfold same_key, rkey_eqb, order_eqb. cbn [fst snd key_eqb]. now rewrite Z.eqb_refl, gt_eqb_refl, Z.eqb_refl. Qed.

Lemma after_call s g o s' v : quadrule s g o = (s', Ret v) ->
  (exists t, attr_type g = KType t) -> dget rhash rkey_eqb (rs_dict s') (attr_type g, o) = Some v.
Proof.
  intros H (t & E). revert H. unfold quadrule, quadratureRule. cbn [fst]. fold rhash.
  destruct (dget rhash rkey_eqb (rs_dict s) (attr_type g, o)) as [w|] eqn:G; [intros X; injection X as <- <-; exact G|].
  fold rule. destruct (rule (attr_type g) o) as [r|e|]; intros X; [|discriminate|discriminate]. injection X as <- <-. cbn [rs_dict].
  rewrite (dset_miss _ _ _ _ _ G). apply dget_new; [exact G|]. rewrite E. apply rkey_refl.
Qed.
End Layer.
