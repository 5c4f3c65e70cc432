(** C76: the Python layer: the caches of quadratureRule and referenceElement over all histories
    of calls, rules as numpy arrays, and integrate. *)
From Coq Require Import NArith ZArith PeanoNat Bool List Lia Reals Lra.
From Verif Require Import M_Type M_TypeIndex M_TypeString M_RefGeo M_RefTopo M_QuadFactory M_Quadrature M_Container
  M_PyRules S_Topo S_RefGeo S_Quad S_QuadND P_Topo P_Type P_Type2 P_QuadFactory P_QuadAll P_PyRules P_PyRules2
  P_RefTopo2 P_RefGeo3 P_RefGeo4 T_TypeString T_RefTopo T_RefGeo T_Container T_Quad.
Import ListNotations.

Section Caches.
Variable hpair : Z -> Z -> Z.
Variable hnum : Z -> Z.
Variable objHash : nat -> Z.
Variable load : nat -> bool.
Variable lapack : Z -> nat -> option (list (R * R)).
Local Notation "'runsFrom'" := (runs hpair hnum objHash load lapack).
Local Notation "'quadratureRule''" := (quadratureRule hpair hnum objHash load lapack).
Local Notation "'call_rule''" := (call_rule load lapack).

(** Whatever has been asked before, in whatever form, an integer order and a type other than
    none get the rule, the exception or the undefined behaviour of the C++ call.  Values of
    rules are compared by order, points and weights, and == of the types. *)
Theorem C76_transparent : forall l s g t p,
  runsFrom rs_init l s -> attr_type g = KType t -> gt_none t = false ->
  match snd (quadratureRule' s g (OInt p)), call_rule' (KType t) (OInt p) with
  | Ret v, Ret y => ru_order (snd v) = ru_order y /\ ru_points (snd v) = ru_points y /\ gt_eqb (ru_type (snd v)) (ru_type y) = true
  | Raise e, Raise e' => e = e'
  | Undef, Undef => True
  | _, _ => False
  end.
Proof.
  intros l s g t p H G Nt. pose proof (runs_inv _ _ _ _ _ _ _ _ (init_inv load lapack) H) as [I1 _].
  unfold quadratureRule. cbn [fst]. rewrite G.
  destruct (dget _ _ (rs_dict s) _) as [v|] eqn:E.
  - cbn [snd]. apply dget_in in E. destruct E as (k' & K1 & K2). destruct (I1 _ _ K1) as (_ & t' & p' & -> & C).
    unfold same_key, rkey_eqb in K2. cbn [fst snd key_eqb] in K2. apply andb_prop in K2. destruct K2 as [_ K2].
    apply andb_prop in K2. destruct K2 as [K2 K3]. unfold order_eqb in K3. cbn [order_val] in K3. apply Z.eqb_eq in K3. subst p'.
    pose proof (call_rule_same load lapack t' t p Nt K2) as S. rewrite C in S.
    destruct (call_rule' (KType t) (OInt p)); auto.
  - destruct (call_rule' (KType t) (OInt p)) as [r|e|]; cbn [snd]; auto using gt_eqb_refl.
Qed.

(** A rule once returned is returned for ever: for every equal type, passed directly or as an
    entity, and every equal order, also as a float, it is the same object, and nothing is
    computed or stored. *)
Theorem C76_same_object : forall l s g t o s1 v l' s2 g' t' o',
  runsFrom rs_init l s -> attr_type g = KType t -> gt_none t = false ->
  quadratureRule' s g o = (s1, Ret v) -> runsFrom s1 l' s2 ->
  attr_type g' = KType t' -> gt_eqb t t' = true -> order_val o = order_val o' ->
  quadratureRule' s2 g' o' = (s2, Ret v).
Proof.
  intros l s g t o s1 v l' s2 g' t' o' H G Nt Q H' G' E O.
  pose proof (after_call _ _ _ _ _ _ _ _ _ _ Q (ex_intro _ t G)) as D. rewrite G in D.
  destruct (runs_ext _ _ _ _ _ _ _ _ H') as (e & X). apply (dget_app _ _ _ e) in D. rewrite <- X in D.
  rewrite (dget_ext _ _ _ _ (KType t', o')) in D by (now apply rkey_same).
  unfold quadratureRule. cbv zeta. unfold RKey in *. rewrite G', D. reflexivity.
Qed.

(** Two calls that return the same object were for equal types and equal orders. *)
Theorem C76_different_objects : forall l s g t o s1 v l' s2 g' t' o' s3 v',
  runsFrom rs_init l s -> attr_type g = KType t -> quadratureRule' s g o = (s1, Ret v) ->
  runsFrom s1 l' s2 -> attr_type g' = KType t' -> quadratureRule' s2 g' o' = (s3, Ret v') ->
  fst v = fst v' -> v = v' /\ gt_eqb t t' = true /\ order_val o = order_val o'.
Proof.
  intros l s g t o s1 v l' s2 g' t' o' s3 v' H G Q H' G' Q' E.
  pose proof (runs_inv _ _ _ _ _ _ _ _ (init_inv load lapack) H) as J.
  pose proof (step_inv _ _ _ _ _ _ _ _ _ _ J Q) as J1.
  pose proof (runs_inv _ _ _ _ _ _ _ _ J1 H') as J2.
  pose proof (step_inv _ _ _ _ _ _ _ _ _ _ J2 Q') as J3.
  pose proof (after_call _ _ _ _ _ _ _ _ _ _ Q (ex_intro _ t G)) as D. rewrite G in D.
  pose proof (after_call _ _ _ _ _ _ _ _ _ _ Q' (ex_intro _ t' G')) as D'. rewrite G' in D'.
  destruct (runs_ext _ _ _ _ _ _ _ _ H') as (e & X). destruct (step_ext _ _ _ _ _ _ _ _ _ _ Q') as (e' & X').
  apply (dget_app _ _ _ e) in D. rewrite <- X in D. apply (dget_app _ _ _ e') in D. rewrite <- X' in D.
  apply dget_in in D, D'. destruct D as (k1 & A1 & B1), D' as (k2 & A2 & B2).
  assert (K : (k1, v) = (k2, v')).
  { destruct J3 as [_ ND]. revert A1 A2 ND. generalize (rs_dict s3). intros d. induction d as [|x d IH]; [intros []|].
    cbn [map]. intros A1 A2 ND. inversion_clear ND as [|? ? N1 N2].
    destruct A1 as [->|A1], A2 as [A2|A2]; [congruence| | |now apply IH].
    - elim N1. apply in_map_iff. exists (k2, v'). cbn [fst snd]. auto.
    - elim N1. apply in_map_iff. exists (k1, v). subst x. cbn [fst snd]. auto. }
  injection K as -> ->. split; [reflexivity|].
  destruct J3 as [I1 _]. destruct (I1 _ _ A2) as (_ & u & q & -> & _).
  unfold same_key, rkey_eqb, order_eqb in B1, B2. cbn [fst snd key_eqb order_val] in B1, B2.
  apply andb_prop in B1, B2. destruct B1 as [_ B1], B2 as [_ B2]. apply andb_prop in B1, B2. destruct B1 as [B1 C1], B2 as [B2 C2].
  apply Z.eqb_eq in C1, C2. split; [|congruence]. eapply gt_eqb_trans; [apply gt_eqb_sym; exact B1|exact B2].
Qed.

(** An exception leaves the cache as it was; a reference element, whose attribute type is a
    method, never gets a rule. *)
Theorem C76_exceptions : forall l s g o, runsFrom rs_init l s ->
  (forall e, snd (quadratureRule' s g o) = Raise e -> fst (quadratureRule' s g o) = s)
  /\ ((forall t, attr_type g <> KType t) -> quadratureRule' s g o = (s, Raise AttributeError)).
Proof.
  intros l s g o H. pose proof (runs_inv _ _ _ _ _ _ _ _ (init_inv load lapack) H) as [I1 _].
  unfold quadratureRule. cbn [fst]. destruct (dget _ _ (rs_dict s) _) as [v|] eqn:E.
  - split; [intros e X; discriminate|]. intros N. exfalso. apply dget_in in E. destruct E as (k & A & B).
    destruct (I1 _ _ A) as (_ & t & p & -> & _). unfold same_key, rkey_eqb in B. cbn [fst snd] in B.
    destruct (attr_type g) as [u|m|m]; [now elim (N u)| |]; cbn [key_eqb] in B; now rewrite andb_false_r in B.
  - destruct (call_rule' (attr_type g) o) as [r|e'|] eqn:C; split; try (intros e X; discriminate).
    + intros N. destruct (rule_ret load lapack _ _ _ C) as (t & _ & T & _). now elim (N t).
    + intros e X. reflexivity.
    + intros N. destruct (attr_type g) as [u|m|m]; [now elim (N u)| |]; cbn [call_rule] in C; congruence.
    + intros N. destruct (attr_type g) as [u|m|m]; [now elim (N u)| |]; cbn [call_rule] in C; congruence.
Qed.

(** a reference element is no valid argument, although it has a type: type is a method of it,
    and the entries of the cache are never found with it *)
Theorem C76_reference_element_argument : forall l s n o, runsFrom rs_init l s ->
  quadratureRule' s (ORefElement n) o = (s, Raise AttributeError).
Proof. intros l s n o H. apply (C76_exceptions l s (ORefElement n) o H). intros t X. discriminate X. Qed.

(** The reference elements: None for none types, else an element of an equal type, whatever has
    been asked before. *)
Theorem C76_elements : forall l d g t,
  eruns objHash load [] l d -> (forall g' t', In g' l -> attr_type g' = KType t' -> wf t') ->
  attr_type g = KType t -> wf t ->
  if load (gt_dim t) then
    if gt_none t then snd (referenceElement objHash load d g) = Ret None
    else exists c e t', snd (referenceElement objHash load d g) = Ret (Some e)
           /\ container (gt_dim t) = Some c /\ el_type c e = Some t' /\ gt_eqb t' t = true
  else snd (referenceElement objHash load d g) = Raise ImportError.
Proof.
  intros l d g t H W G Wt.
  assert (J : forall k v, In (k, v) d -> exists u, k = KType u /\ wf u /\ call_general load (KType u) = Ret v).
  { revert W. induction H as [|l d g' d' c H IH E Hc]; intros W k v K; [destruct K|].
    assert (IH' := IH (fun g0 t0 A B => W g0 t0 (in_or_app _ _ _ (or_introl A)) B)).
    unfold referenceElement in E. destruct (dget _ _ d _) as [w|] eqn:D; [injection E as <- <-; now apply IH'|].
    destruct (call_general load (attr_type g')) as [a|e|] eqn:C; injection E as <- <-; try now apply IH'.
    rewrite (dset_miss _ _ _ _ _ D) in K. apply in_app_or in K. destruct K as [K|[K|[]]]; [now apply IH'|].
    injection K as <- <-. destruct (attr_type g') as [u|m|m] eqn:A; [|discriminate C|discriminate C].
    exists u. split; [reflexivity|]. split; [|exact C]. apply (W g' u); [apply in_or_app; right; now left|exact A]. }
  assert (CG : forall u, wf u -> if load (gt_dim u) then
      if gt_none u then call_general load (KType u) = Ret None
      else exists c e, call_general load (KType u) = Ret (Some e) /\ container (gt_dim u) = Some c /\ el_type c e = Some u
    else call_general load (KType u) = Raise ImportError).
  { intros u [Wd Wi]. rewrite bit_pow in Wi. cbn [call_general]. destruct (load (gt_dim u)); [|reflexivity].
    destruct (C60_construction (gt_dim u)) as (c & C & _). rewrite C. cbn [obind].
    destruct (C60_python_general (gt_dim u) c u ltac:(lia) C eq_refl Wi) as [A B].
    destruct (gt_none u); [now rewrite A|]. destruct (B eq_refl) as (e & B1 & B2). rewrite B1. eauto. }
  unfold referenceElement. rewrite G. destruct (dget _ _ d (KType t)) as [v|] eqn:E.
  - cbn [snd]. apply dget_in in E. destruct E as (k & A & B). destruct (J _ _ A) as (u & -> & Wu & C).
    unfold same_key in B. cbn [key_hash key_eqb] in B. apply andb_prop in B. destruct B as [B1 B2].
    apply Z.eqb_eq, N2Z.inj in B1. unfold pyHash in B1. apply (global_index_inj u t Wu Wt) in B1. destruct B1 as [D _].
    assert (Nn : gt_none u = gt_none t) by (unfold gt_eqb in B2; apply andb_prop in B2; now apply eqb_prop).
    pose proof (CG u Wu) as X. rewrite D, Nn, C in X. destruct (load (gt_dim t)); [|discriminate X].
    destruct (gt_none t); [exact X|]. destruct X as (c & e & X1 & X2 & X3). exists c, e, u. auto.
  - pose proof (CG t Wt) as X. destruct (load (gt_dim t)).
    + destruct (gt_none t); [now rewrite X|]. destruct X as (c & e & X1 & X2 & X3). rewrite X1. exists c, e, t. auto using gt_eqb_refl.
    + now rewrite X.
Qed.
End Caches.
Print Assumptions C76_transparent.
Print Assumptions C76_same_object.
Print Assumptions C76_different_objects.
Print Assumptions C76_exceptions.
Print Assumptions C76_reference_element_argument.
Print Assumptions C76_elements.

(** The restriction to integer orders is needed: a float order raises TypeError, unless the
    rule has been asked for with the integer before. *)
Theorem C76_float_order_refuted : forall hpair hnum objHash lapack, exists l s g o r,
  runs hpair hnum objHash (fun _ => true) lapack rs_init l s
  /\ snd (quadratureRule hpair hnum objHash (fun _ => true) lapack rs_init g o) = Raise TypeError
  /\ snd (quadratureRule hpair hnum objHash (fun _ => true) lapack s g o) = Ret r.
Proof.
  intros hpair hnum objHash lapack.
  assert (F : exists r, factory lapack 1 line 2 qtLegendre = Some r) by (eexists; reflexivity). destruct F as (r & F).
  assert (Q : quadratureRule hpair hnum objHash (fun _ => true) lapack rs_init (OType line) (OInt 2)
    = (mkRS [((KType line, OInt 2), (0, r))] 1, Ret (0, r))).
  { unfold quadratureRule. cbn [dget find option_map rs_dict rs_init fst attr_type call_rule gt_dim line module_rule].
    change ((2 <? INT_MIN)%Z || (INT_MAX <? 2)%Z) with false. change (negb (Nat.eqb (gt_dim line) (gt_dim line))) with false.
    cbv iota. change (gt_dim line) with 1%nat. change (negb (inRange 1 line 2 qtLegendre)) with false. cbv iota. rewrite F. reflexivity. }
  exists [(OType line, OInt 2)], (mkRS [((KType line, OInt 2), (0, r))] 1), (OType line), (OFloat 2), (0, r).
  split; [|split; [reflexivity|]].
  - change [(OType line, OInt 2)] with ([] ++ [(OType line, OInt 2)]). eapply runs_call; [apply runs_nil|exact Q|discriminate].
  - assert (X := C76_same_object hpair hnum objHash (fun _ => true) lapack [] rs_init (OType line) line (OInt 2)
      _ _ [] _ (OType line) line (OFloat 2) (runs_nil _ _ _ _ _ _) eq_refl eq_refl Q (runs_nil _ _ _ _ _ _) eq_refl (gt_eqb_refl _) eq_refl).
    now rewrite X.
Qed.
Print Assumptions C76_float_order_refuted.

(** ** numpy arrays *)
Local Open Scope R_scope.
(** The arrays of get(): shapes (d,n) and (n); the element (r,c) is coordinate r of point c;
    every element lies inside of the memory of the rule. *)
Theorem C76_numpy : forall d pts, (0 < d)%nat -> pts <> [] ->
  exists p w, quadratureToNumpy d pts = Some (p, w)
    /\ nd_shape p = [d; length pts] /\ nd_shape w = [length pts]
    /\ (forall r c, match nth_error pts c with
          | Some q => (nd_get (memory d pts) w [c] = Some (snd q))
                      /\ ((r < d)%nat -> nd_get (memory d pts) p [r; c] = Some (fst q r))
          | None => nd_get (memory d pts) w [c] = None /\ nd_get (memory d pts) p [r; c] = None
          end).
Proof.
  intros d pts Hd Hp. destruct pts as [|q0 pts0]; [congruence|]. destruct d as [|d']; [lia|].
  set (d := S d') in *. set (pts := q0 :: pts0) in *.
  exists (mkNd [d; length pts] [1%nat; qp_size d] 0), (mkNd [length pts] [qp_size d] d).
  split; [reflexivity|]. split; [reflexivity|]. split; [reflexivity|]. intros r c.
  unfold nd_get. cbn [nd_shape nd_strides nd_base nd_inside nd_offset].
  destruct (nth_error pts c) as [q|] eqn:E.
  - assert (Hc : (c < length pts)%nat) by (apply nth_error_Some; congruence).
    destruct (memory_nth d pts c q E) as [A B]. rewrite (proj2 (Nat.ltb_lt _ _) Hc). cbn [andb]. rewrite Nat.add_0_r. split.
    + exact B.
    + intros Hr. rewrite (proj2 (Nat.ltb_lt _ _) Hr). cbn [andb]. rewrite Nat.mul_1_r, Nat.add_0_l, <- (A r Hr). reflexivity.
  - apply nth_error_None in E. rewrite (proj2 (Nat.ltb_ge _ _) E). cbn [andb]. rewrite andb_false_r. auto.
Qed.
Print Assumptions C76_numpy.

(** integrate: the sum over the points of weight, function and integration element *)
Theorem C76_integrate : forall d pts ie f, (0 < d)%nat -> pts <> [] -> local_fun d f -> local_fun d ie ->
  duneIntegrate d pts (Some ie) f = Ret (quad pts (fun x => f x * ie x)).
Proof.
  intros d pts ie f Hd Hp Lf Li. unfold duneIntegrate.
  destruct (C76_numpy d pts Hd Hp) as (p & w & -> & S1 & S2 & N). f_equal.
  etransitivity; [refine (fold_quad (fun x => f x * ie x) pts 0 0
    (fun c => f (column (memory d pts) d p c) * ie (column (memory d pts) d p c)
              * match nd_get (memory d pts) w [c] with Some x => x | None => 0 end) _)|ring].
  intros c q Hc. cbn [Nat.add]. unfold QPoint in *.
  assert (X : forall k, (k < d)%nat -> column (memory d pts) d p c k = fst q k).
  { intros k Hk. unfold column. specialize (N k c). rewrite Hc in N. destruct N as [_ N]. now rewrite (N Hk). }
  specialize (N 0%nat c). rewrite Hc in N. destruct N as [N _]. rewrite N, (Lf _ _ X), (Li _ _ X). ring.
Qed.
Print Assumptions C76_integrate.

(** Rules of the factory have points, so get() and integrate are defined for them (d > 0). *)
Theorem C76_not_empty : forall hpair hnum objHash load lapack l s g t o s' v,
  runs hpair hnum objHash load lapack rs_init l s -> attr_type g = KType t -> gt_none t = false ->
  quadratureRule hpair hnum objHash load lapack s g o = (s', Ret v) -> ru_points (snd v) <> [].
Proof.
  intros hpair hnum objHash load lapack l s g t o s' v H G Nt Q.
  pose proof (runs_inv _ _ _ _ _ _ _ _ (init_inv load lapack) H) as J.
  pose proof (step_inv _ _ _ _ _ _ _ _ _ _ J Q) as [I1 _].
  pose proof (after_call _ _ _ _ _ _ _ _ _ _ Q (ex_intro _ t G)) as D. apply dget_in in D. destruct D as (k & A & _).
  destruct (I1 _ _ A) as (_ & u & p & _ & C). cbn [call_rule] in C. destruct (load (gt_dim u)); [|discriminate].
  cbn [module_rule] in C. destruct (_ || _); [discriminate|]. destruct (negb _); [discriminate|]. destruct (negb _); [discriminate|].
  destruct (factory lapack (gt_dim u) u p qtLegendre) as [r|] eqn:F; [|discriminate]. injection C as <-. now apply factory_ne in F.
Qed.
Print Assumptions C76_not_empty.

(** the weighted sum over the points of a rule scales *)
Lemma quad_scale pts c f : quad pts (fun x => f x * c) = c * quad pts f.
Proof. induction pts as [|q pts IH]; cbn [quad]; [ring|]. rewrite IH. ring. Qed.
Lemma monomial_local d e : local_fun d (monomial d e).
Proof.
  induction d as [|d IH]; intros x y H; cbn [monomial]; [reflexivity|].
  rewrite (H d ltac:(lia)), (IH x y (fun k Hk => H k ltac:(lia))). reflexivity.
Qed.
Lemma peval_local d P : local_fun d (peval d P).
Proof.
  intros x y H. induction P as [|[c e] P IH]; cbn [peval]; [reflexivity|]. now rewrite IH, (monomial_local d e x y H).
Qed.

(** integrate(quadratureRules(p), entity, f) for a polynomial f of degree at most p in the
    local coordinates and an entity with a constant integration element: after every history
    the result is the integral, up to the accuracy of the tables. *)
Theorem C76_exact : forall hpair hnum objHash load lapack e l s g t p s' v P c,
  lapackOk e lapack -> tableErr p qtLegendre <= e ->
  runs hpair hnum objHash load lapack rs_init l s ->
  attr_type g = KType t -> gt_none t = false -> (0 < gt_dim t < 31)%nat -> (gt_id t < 2 ^ N.of_nat (gt_dim t))%N ->
  quadratureRule hpair hnum objHash load lapack s g (OInt p) = (s', Ret v) ->
  pdegree_le (gt_dim t) P (Z.to_nat p) ->
  exists x, duneIntegrate (gt_dim t) (ru_points (snd v)) (Some (fun _ => c)) (peval (gt_dim t) P) = Ret x
    /\ Rabs (x - c * IintW 0 (topo_of (gt_id t) (gt_dim t)) (peval (gt_dim t) P)) <= Rabs c * (errD 1 e (gt_dim t) * pnorm P).
Proof.
  intros hpair hnum objHash load lapack e l s g t p s' v P c Hl He H G Nt Hd Hid Q HP.
  pose proof (C76_not_empty _ _ _ _ _ _ _ _ _ _ _ _ H G Nt Q) as NE.
  pose proof (C76_transparent _ _ _ _ _ _ _ _ _ p H G Nt) as T. rewrite Q in T. cbn [snd] in T.
  destruct (call_rule load lapack (KType t) (OInt p)) as [y| |] eqn:C; try contradiction. destruct T as (T1 & T2 & T3).
  eexists. split; [apply C76_integrate; [lia|exact NE|apply peval_local|intros ? ? _; reflexivity]|].
  cbn [call_rule] in C. destruct (load (gt_dim t)); [|discriminate]. cbn [module_rule] in C.
  destruct (_ || _); [discriminate|]. rewrite Nat.eqb_refl in C. cbn [negb] in C.
  destruct (inRange (gt_dim t) t p qtLegendre) eqn:IR; cbn [negb] in C; [|discriminate].
  destruct (factory lapack (gt_dim t) t p qtLegendre) as [z|] eqn:F; [|discriminate]. injection C as ->.
  assert (V : valid (mkReq (gt_dim t) t p qtLegendre)).
  { split; [cbn; lia|]. split; [reflexivity|]. split; [exact Hid|]. split; [cbn; congruence|]. split; [cbn; unfold qtLegendre, qtSize; lia|].
    right. cbn [rq_dim rq_t rq_p rq_qt]. unfold inRange in IR. destruct (gt_dim t) eqn:E; [lia|].
    destruct (maxOrder (S n) t qtLegendre) as [m|]; [|discriminate]. exists m. split; [reflexivity|].
    apply andb_prop in IR. rewrite !Z.leb_le in IR. exact IR. }
  assert (QR : quadRule lapack (mkReq (gt_dim t) t p qtLegendre) = Some y).
  { unfold quadRule. cbn [rq_dim rq_t rq_p rq_qt]. now rewrite IR. }
  destruct (C43_all_rules lapack e (mkReq (gt_dim t) t p qtLegendre) y Hl He V QR) as (A & _). cbn [rq_dim rq_t rq_p rq_qt weightExp qtLegendre] in A. rewrite Cw0 in A.
  pose proof (C40_delivered_order lapack e _ y Hl V QR ltac:(cbn; lia)) as O. cbn [rq_p] in O.
  rewrite quad_scale, T2, <- Rmult_minus_distr_l, Rabs_mult. apply Rmult_le_compat_l; [apply Rabs_pos|].
  specialize (A P). rewrite tdim_topo_of in A. apply A. intros c0 e0 I. specialize (HP c0 e0 I). lia.
Qed.
Print Assumptions C76_exact.

(** The except clause of _duneIntegrate, meant for entities without an attribute geometry,
    raises NameError for every rule and function. *)
Theorem C76_no_geometry_refuted : forall d pts f, (0 < d)%nat -> pts <> [] -> duneIntegrate d pts None f = Raise NameError.
Proof.
  intros d pts f Hd Hp. unfold duneIntegrate. destruct (C76_numpy d pts Hd Hp) as (p & w & -> & _). reflexivity.
Qed.
Print Assumptions C76_no_geometry_refuted.

(** ** Tuples *)
Lemma py_all_tuple {A} (get : nat -> option A) n : (forall i, (i < n)%nat -> get i <> None) ->
  exists l, py_all (fun i => py_of (get (Z.to_nat i))) n 0 = PyReturn l /\ length l = n /\ forall i, (i < n)%nat -> nth_error l i = get i.
Proof.
  intros H. assert (X : exists l, length l = n /\ forall i, (i < n)%nat -> nth_error l i = get i).
  { clear -H. induction n as [|n IH]; [exists []; split; [reflexivity|lia]|].
    destruct IH as (l & L & E); [intros i Hi; apply H; lia|].
    destruct (get n) as [a|] eqn:G; [|elim (H n); [lia|exact G]].
    exists (l ++ [a]). rewrite app_length. split; [cbn; lia|]. intros i Hi.
    destruct (Nat.eq_dec i n) as [->|N]; [rewrite nth_error_app2, L, Nat.sub_diag by lia; now rewrite G|].
    rewrite nth_error_app1 by lia. apply E. lia. }
  destruct X as (l & L & E). exists l. split; [|auto]. rewrite <- L at 1. apply py_all_ok. rewrite L. intros k Hk.
  destruct (get k) as [a|] eqn:G; [|elim (H k Hk G)]. exists a. rewrite (E k Hk), Z.add_0_l, Nat2Z.id, G. auto.
Qed.

(** positions(c), types(c), corners and integrationOuterNormals have the length size(c),
    size(c), size(dim), size(1) and as entries the results of position(i,c), type(i,c), the
    corners and integrationOuterNormal(i); a codimension or an index out of range is a
    ValueError, and nothing is read out of bounds. *)
Theorem C76_tuples : forall id dim r, (id < 2 ^ N.of_nat dim)%N -> re_infos id dim = Some r ->
  (forall c, match py_positions id dim r c with
     | PyUndefined => False
     | PyValueError => ~ (0 <= c <= Z.of_nat dim)%Z /\ forall i, py_position id dim r i c = PyValueError
     | PyReturn l => (0 <= c <= Z.of_nat dim)%Z /\ length l = size id dim (Z.to_nat c)
         /\ forall i, py_position id dim r i c
              = if (0 <=? i)%Z then match nth_error l (Z.to_nat i) with Some x => PyReturn x | None => PyValueError end else PyValueError
     end)
  /\ (forall c, match py_types dim r c with
     | PyUndefined => False
     | PyValueError => ~ (0 <= c <= Z.of_nat dim)%Z /\ forall i, py_type dim r i c = PyValueError
     | PyReturn l => (0 <= c <= Z.of_nat dim)%Z /\ length l = size id dim (Z.to_nat c)
         /\ forall i, py_type dim r i c
              = if (0 <=? i)%Z then match nth_error l (Z.to_nat i) with Some x => PyReturn x | None => PyValueError end else PyValueError
     end)
  /\ py_corners id dim r = PyReturn (referenceCorners id dim)
  /\ ((0 < dim)%nat -> py_normals id dim r = PyReturn (referenceIntegrationOuterNormals id dim)
       /\ forall i, py_normal id dim r i
           = if (0 <=? i)%Z then match nth_error (referenceIntegrationOuterNormals id dim) (Z.to_nat i) with Some x => PyReturn x | None => PyValueError end
             else PyValueError).
Proof.
  intros id dim r Hid Hr. pose proof Hid as Hid'. rewrite <- bit_pow in Hid'. pose proof (re_infos_ok id dim r Hid' Hr) as OK.
  assert (SZ : forall c, (c <= dim)%nat -> re_size r c = size id dim c).
  { destruct (C10_reference_element_size id dim Hid) as (r' & R & S). rewrite Hr in R. injection R as <-. exact S. }
  assert (PD : forall i c, (c <= dim)%nat -> (i < re_size r c)%nat -> re_position id dim r i c <> None).
  { intros i c Hc Hi. destruct (re_face id dim r i c OK Hc Hi) as (f & F1 & F2 & F3 & _).
    destruct (re_position_spec id dim r f OK F1) as (p & P & _). rewrite F2, F3 in P. congruence. }
  assert (TD : forall i c, (c <= dim)%nat -> (i < re_size r c)%nat -> re_type r i c <> None).
  { intros i c Hc Hi. destruct (re_face id dim r i c OK Hc Hi) as (f & _ & _ & _ & s & S & _). unfold re_type. now rewrite S. }
  assert (GEN : forall A (get : nat -> nat -> option A) c,
     (forall i c, (c <= dim)%nat -> (i < re_size r c)%nat -> get i c <> None) ->
     match py_bind (py_size dim r c) (fun size => py_all (fun i => py_of (get (Z.to_nat i) (Z.to_nat c))) size 0) with
     | PyUndefined => False
     | PyValueError => ~ (0 <= c <= Z.of_nat dim)%Z /\ forall i, py_bind (py_size dim r c) (fun size =>
         if (i <? 0)%Z || (Z.of_nat size <=? i)%Z then PyValueError else py_of (get (Z.to_nat i) (Z.to_nat c))) = PyValueError
     | PyReturn l => (0 <= c <= Z.of_nat dim)%Z /\ length l = size id dim (Z.to_nat c)
         /\ forall i, py_bind (py_size dim r c) (fun size =>
              if (i <? 0)%Z || (Z.of_nat size <=? i)%Z then PyValueError else py_of (get (Z.to_nat i) (Z.to_nat c)))
              = if (0 <=? i)%Z then match nth_error l (Z.to_nat i) with Some x => PyReturn x | None => PyValueError end else PyValueError
     end).
  { intros A get c D. unfold py_size. destruct (Z.ltb_spec c 0) as [H1|H1]; cbn [orb py_bind]; [split; [lia|reflexivity]|].
    destruct (Z.ltb_spec (Z.of_nat dim) c) as [H2|H2]; cbn [py_bind]; [split; [lia|reflexivity]|].
    destruct (py_all_tuple (fun i => get i (Z.to_nat c)) (re_size r (Z.to_nat c))) as (l & L1 & L2 & L3).
    { intros i Hi. apply D; [lia|exact Hi]. }
    rewrite L1. split; [lia|]. split; [rewrite L2; apply SZ; lia|]. intros i.
    destruct (Z.ltb_spec i 0) as [H3|H3], (Z.leb_spec 0 i) as [H3'|H3']; try lia; cbn [orb]; [reflexivity|].
    destruct (Z.leb_spec (Z.of_nat (re_size r (Z.to_nat c))) i) as [H4|H4].
    - rewrite (proj2 (nth_error_None l (Z.to_nat i))) by lia. reflexivity.
    - rewrite L3 by lia. specialize (D (Z.to_nat i) (Z.to_nat c) ltac:(lia) ltac:(lia)). destruct (get (Z.to_nat i) (Z.to_nat c)); [reflexivity|congruence]. }
  split; [intros c; apply (GEN _ (re_position id dim r) c PD)|]. split; [intros c; apply (GEN _ (re_type r) c TD)|]. split.
  - unfold py_corners. rewrite (SZ dim) by lia. rewrite <- C16_corner_count. apply py_all_ok. intros k Hk.
    rewrite Z.add_0_l, Nat2Z.id. unfold re_position. rewrite Nat.eqb_refl.
    destruct (nth_error (referenceCorners id dim) k) as [a|] eqn:E; [eauto|apply nth_error_None in E; lia].
  - intros Hd. assert (S1 : re_size r 1 = length (referenceIntegrationOuterNormals id dim)) by (rewrite C22_normal_count by lia; apply SZ; lia).
    unfold py_normals, py_normal. rewrite S1. split.
    + apply py_all_ok. intros k Hk. rewrite Z.add_0_l, Nat2Z.id.
      destruct (nth_error (referenceIntegrationOuterNormals id dim) k) as [a|] eqn:E; [eauto|apply nth_error_None in E; lia].
    + intros i. destruct (Z.ltb_spec i 0) as [H3|H3], (Z.leb_spec 0 i) as [H3'|H3']; try lia; cbn [orb]; [reflexivity|].
      destruct (Z.leb_spec (Z.of_nat (length (referenceIntegrationOuterNormals id dim))) i) as [H4|H4].
      * rewrite (proj2 (nth_error_None _ (Z.to_nat i))) by lia. reflexivity.
      * destruct (nth_error (referenceIntegrationOuterNormals id dim) (Z.to_nat i)) as [a|] eqn:E; [reflexivity|apply nth_error_None in E; lia].
Qed.
Print Assumptions C76_tuples.

(** A session: the rule of order 2 for a quadrilateral, twice, the second time through an
    entity, and a rule of order 3; then get() of a rule with two points of dimension 2, and its
    integral of x0*x1. *)
Example C76_example : forall hpair hnum objHash lapack,
  let call := quadratureRule hpair hnum objHash (fun _ => true) lapack in
  (exists r s1, call rs_init (OType quadrilateral) (OInt 2) = (s1, Ret (0%nat, r)) /\ length (ru_points r) = 4%nat
     /\ call s1 (OEntity (mkGT 2 false 2)) (OInt 2) = (s1, Ret (0%nat, r))
     /\ call s1 (ORefElement 7) (OInt 2) = (s1, Raise AttributeError))
  /\ (let pts := [((fun k => INR (k + 1)) : Vec, 5); ((fun k => INR (k + 3)) : Vec, 6)] in
      memory 2 pts = [INR 1; INR 2; 5; INR 3; INR 4; 6]
      /\ duneIntegrate 2 pts (Some (fun _ => 2)) (fun x => x 0%nat * x 1%nat) = Ret 164)
  /\ snd (referenceElement objHash (fun _ => true) [] (OType (none 3))) = Ret None.
Proof.
  intros hpair hnum objHash lapack call. split; [|split].
  - assert (F : exists r, factory lapack 2 quadrilateral 2 qtLegendre = Some r /\ length (ru_points r) = 4%nat)
      by (eexists; split; reflexivity).
    destruct F as (r & F & L).
    assert (Q : call rs_init (OType quadrilateral) (OInt 2) = (mkRS [((KType quadrilateral, OInt 2), (0%nat, r))] 1, Ret (0%nat, r))).
    { unfold call, quadratureRule. cbn [dget find option_map rs_dict rs_init fst attr_type call_rule module_rule].
      change ((2 <? INT_MIN)%Z || (INT_MAX <? 2)%Z) with false. change (gt_dim quadrilateral) with 2%nat. cbn [Nat.eqb negb].
      change (inRange 2 quadrilateral 2 qtLegendre) with true. cbv iota. cbn [negb]. rewrite F. reflexivity. }
    exists r. eexists. split; [exact Q|]. split; [exact L|]. split.
    + eapply (C76_same_object hpair hnum objHash (fun _ => true) lapack [] rs_init (OType quadrilateral) quadrilateral (OInt 2));
        [apply runs_nil|reflexivity|reflexivity|exact Q|apply runs_nil|reflexivity|reflexivity|reflexivity].
    + refine (proj2 (C76_exceptions hpair hnum objHash (fun _ => true) lapack ([] ++ [_]) _ (ORefElement 7) (OInt 2) _) _).
      * eapply runs_call; [apply runs_nil|exact Q|discriminate].
      * discriminate.
  - split; [reflexivity|]. rewrite C76_integrate; [|lia|discriminate| |intros ? ? _; reflexivity].
    + cbn [quad fst snd Nat.add INR]. f_equal. lra.
    + intros x y H. rewrite (H 0%nat), (H 1%nat) by lia. reflexivity.
  - reflexivity.
Qed.
