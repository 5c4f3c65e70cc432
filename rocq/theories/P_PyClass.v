(** Proofs about the model of the registration of Python classes (M_PyClass). *)
From Coq Require Import NArith ZArith PeanoNat Bool List Lia String.
From Verif Require Import M_PyRules M_PyClass.
Import ListNotations.
Local Open Scope list_scope.

(** ** Attributes *)
Lemma argkind_eqb_eq a b : argkind_eqb a b = true <-> a = b.
Proof. destruct a, b; cbn; split; congruence. Qed.
Lemma args_eqb_eq a : forall b, args_eqb a b = true <-> a = b.
Proof.
  induction a as [|x a IH]; intros [|y b]; cbn; split; try congruence; intros H.
  - apply andb_prop in H. destruct H as [H1 H2]. apply argkind_eqb_eq in H1. apply IH in H2. congruence.
  - injection H as -> ->. rewrite (proj2 (argkind_eqb_eq y y) eq_refl). now apply IH.
Qed.

Lemma lookup_set c n a m : lookup (setattr c n a) m = if String.eqb n m then Some a else lookup c m.
Proof.
  induction c as [|[k b] c IH]; [reflexivity|]. cbn [setattr]. destruct (String.eqb_spec k n) as [->|N]; cbn [lookup].
  - destruct (String.eqb n m); reflexivity.
  - destruct (String.eqb_spec k m) as [->|M]; [|exact IH]. destruct (String.eqb_spec n m); congruence.
Qed.
Lemma lookup_def1 c o m : lookup (def1 c o) m = if String.eqb (op_name o) m then Some (op_on (lookup c m) o) else lookup c m.
Proof. unfold def1. rewrite lookup_set. destruct (String.eqb_spec (op_name o) m) as [->|]; reflexivity. Qed.

Definition is_def (o : DefOp) : bool := match o with Def _ _ _ => true | DefProp _ _ => false end.
(** no name is used for a function and a property *)
Definition uniform (ops : list DefOp) : Prop :=
  forall o o', In o ops -> In o' ops -> op_name o = op_name o' -> is_def o = is_def o'.
Definition uniformb (ops : list DefOp) : bool :=
  forallb (fun o => forallb (fun o' => implb (String.eqb (op_name o) (op_name o')) (Bool.eqb (is_def o) (is_def o'))) ops) ops.
Lemma uniformb_ok ops : uniformb ops = true -> uniform ops.
Proof.
  intros H o o' I I' E. unfold uniformb in H. rewrite forallb_forall in H. specialize (H o I). cbv beta in H.
  rewrite forallb_forall in H. specialize (H o' I'). cbv beta in H. rewrite E, String.eqb_refl in H. cbn [implb] in H.
  now apply Bool.eqb_prop in H.
Qed.

Lemma defs_snoc ops o c : defs (ops ++ [o]) c = def1 (defs ops c) o.
Proof. unfold defs. now rewrite fold_left_app. Qed.

(** where an attribute comes from *)
Lemma lookup_defs_in ops c n a : lookup (defs ops c) n = Some a ->
  (exists o, In o ops /\ op_name o = n /\ is_def o = match a with Meth _ => true | _ => false end) \/ lookup c n = Some a.
Proof.
  revert a. induction ops as [|o ops IH] using rev_ind; intros a H; [now right|].
  rewrite defs_snoc, lookup_def1 in H. destruct (String.eqb_spec (op_name o) n) as [E|N].
  - left. exists o. split; [apply in_or_app; right; now left|]. split; [exact E|].
    injection H as <-. destruct o; cbn; [|reflexivity]. destruct (lookup _ n) as [[]|]; reflexivity.
  - destruct (IH _ H) as [(o' & I & J)|L]; [left|now right]. exists o'. split; [|exact J]. apply in_or_app. now left.
Qed.

(** what an operation makes available *)
Definition use_of (o : DefOp) : Use * string :=
  match o with Def n a w => (CallF n a, w) | DefProp n w => (Get n, w) end.
Definition use_eqb (a b : Use) : bool :=
  match a, b with
  | Get m, Get n => String.eqb m n
  | CallF m x, CallF n y => String.eqb m n && args_eqb x y
  | _, _ => false
  end.
Lemma use_eqb_eq a b : use_eqb a b = true <-> a = b.
Proof.
  destruct a as [m|m x], b as [n|n y]; cbn; split; try congruence; intros H.
  - apply String.eqb_eq in H. congruence.
  - injection H as ->. apply String.eqb_refl.
  - apply andb_prop in H. destruct H as [H1 H2]. apply String.eqb_eq in H1. apply args_eqb_eq in H2. congruence.
  - injection H as -> ->. rewrite String.eqb_refl. now apply args_eqb_eq.
Qed.
Fixpoint nodupb (l : list Use) : bool :=
  match l with [] => true | u :: l' => negb (existsb (use_eqb u) l') && nodupb l' end.
Lemma nodupb_ok l : nodupb l = true -> NoDup l.
Proof.
  induction l as [|u l IH]; intros H; [constructor|]. cbn in H. apply andb_prop in H. destruct H as [H1 H2].
  constructor; [|now apply IH]. intros I. apply negb_true_iff in H1.
  assert (X : existsb (use_eqb u) l = true) by (apply existsb_exists; exists u; split; [exact I|now apply use_eqb_eq]). congruence.
Qed.

Lemma use_in_def ops n a w : In (CallF n a, w) (map use_of ops) <-> In (Def n a w) ops.
Proof.
  rewrite in_map_iff. split; [intros (o & E & I)|intros I; now exists (Def n a w)].
  destruct o; cbn in E; congruence.
Qed.
Lemma use_in_prop ops n w : In (Get n, w) (map use_of ops) <-> In (DefProp n w) ops.
Proof.
  rewrite in_map_iff. split; [intros (o & E & I)|intros I; now exists (DefProp n w)].
  destruct o; cbn in E; congruence.
Qed.

Lemma find_app {A} (f : A -> bool) l l' : find f (l ++ l') = match find f l with Some x => Some x | None => find f l' end.
Proof. induction l as [|x l IH]; [reflexivity|]. cbn. destruct (f x); [reflexivity|exact IH]. Qed.

Lemma offers_gen ops : uniform ops -> NoDup (map fst (map use_of ops)) ->
  forall u w, resolve (defs ops []) u = Ret w <-> In (u, w) (map use_of ops).
Proof.
  induction ops as [|o ops IH] using rev_ind; intros U D u w.
  { cbn. split; [|intros []]. destruct u; cbn; discriminate. }
  assert (U' : uniform ops).
  { intros a b A B. apply U; apply in_or_app; now left. }
  rewrite !map_app in D. cbn [map] in D. pose proof (NoDup_remove _ _ _ D) as [D1 D2]. rewrite app_nil_r in D1, D2.
  specialize (IH U' D1). rewrite defs_snoc, map_app. cbn [map].
  assert (Uo : forall o', In o' ops -> op_name o' = op_name o -> is_def o' = is_def o).
  { intros o' I E. apply U; [apply in_or_app; now left|apply in_or_app; right; now left|exact E]. }
  pose proof (IH u w) as IHu. split.
  - intros H. apply in_or_app. destruct u as [n|n a]; cbn [resolve] in *; rewrite lookup_def1 in H; destruct (String.eqb_spec (op_name o) n) as [E|N].
    + destruct o as [m b v|m v]; cbn in H, E; [destruct (lookup _ n) as [[]|]; discriminate|].
      injection H as <-. subst m. right. now left.
    + left. apply IHu. exact H.
    + destruct o as [m b v|m v]; cbn [op_on] in H; [|discriminate]. cbn in E. subst m.
      destruct (lookup (defs ops []) n) as [[l|p]|] eqn:L.
      * rewrite find_app in H. destruct (find (fun o : list ArgKind * string => args_eqb (fst o) a) l) as [x|]; [left; apply IHu; exact H|].
        cbn [find fst] in H. destruct (args_eqb b a) eqn:A; [|discriminate]. apply args_eqb_eq in A. injection H as <-. subst b. right. now left.
      * destruct (lookup_defs_in _ _ _ _ L) as [(o' & I & E' & F)|X]; [|discriminate].
        specialize (Uo o' I E'). rewrite F in Uo. discriminate.
      * cbn [find fst] in H. destruct (args_eqb b a) eqn:A; [|discriminate]. apply args_eqb_eq in A. injection H as <-. subst b. right. now left.
    + left. apply IHu. exact H.
  - intros H. apply in_app_or in H. destruct H as [H|[H|[]]].
    + pose proof (proj2 IHu H) as R. destruct u as [n|n a]; cbn [resolve] in *; rewrite lookup_def1; destruct (String.eqb_spec (op_name o) n) as [E|N]; try exact R.
      * apply use_in_prop in H. specialize (Uo _ H (eq_sym E)). destruct o as [|m v]; [discriminate|]. cbn in E. subst m.
        elim D2. cbn [use_of fst]. apply in_map_iff. exists (Get n, w). split; [reflexivity|]. now apply use_in_prop.
      * apply use_in_def in H. specialize (Uo _ H (eq_sym E)). destruct o as [m b v|]; [|discriminate]. cbn [op_on].
        destruct (lookup (defs ops []) n) as [[l|p]|] eqn:L; [|discriminate|discriminate].
        rewrite find_app. destruct (find (fun o : list ArgKind * string => args_eqb (fst o) a) l); [exact R|discriminate].
    + destruct o as [m b v|m v]; cbn [use_of] in H.
      * injection H as <- <-. cbn [resolve]. rewrite lookup_def1. cbn [op_name op_on]. rewrite String.eqb_refl.
        destruct (lookup (defs ops []) m) as [[l|p]|] eqn:L.
        -- rewrite find_app. destruct (find (fun o : list ArgKind * string => args_eqb (fst o) b) l) as [x|] eqn:F.
           ++ exfalso. apply D2. cbn [use_of fst]. apply in_map_iff. exists (CallF m b, snd x). split; [reflexivity|].
              apply IH. cbn [resolve]. rewrite L, F. reflexivity.
           ++ cbn [find fst]. rewrite (proj2 (args_eqb_eq b b) eq_refl). reflexivity.
        -- cbn [find fst]. now rewrite (proj2 (args_eqb_eq b b) eq_refl).
        -- cbn [find fst]. now rewrite (proj2 (args_eqb_eq b b) eq_refl).
      * injection H as <- <-. cbn [resolve]. rewrite lookup_def1. cbn [op_name op_on]. now rewrite String.eqb_refl.
Qed.

(** ** Registering members several times *)
Definition aeq (a b : option Attr) : Prop :=
  match a, b with
  | None, None => True
  | Some (PropRO w), Some (PropRO w') => w = w'
  | Some (Meth l), Some (Meth l') => forall args, find (fun o => args_eqb (fst o) args) l = find (fun o => args_eqb (fst o) args) l'
  | _, _ => False
  end.
Definition ceq (c c' : Class) : Prop := forall n, aeq (lookup c n) (lookup c' n).
Lemma aeq_refl a : aeq a a. Proof. destruct a as [[]|]; cbn; auto. Qed.
Lemma aeq_trans a b c : aeq a b -> aeq b c -> aeq a c.
Proof. destruct a as [[]|], b as [[]|], c as [[]|]; cbn; intros H K; try tauto; try congruence. intros args. now rewrite H. Qed.
Lemma ceq_refl c : ceq c c. Proof. intros n. apply aeq_refl. Qed.
Lemma ceq_trans a b c : ceq a b -> ceq b c -> ceq a c.
Proof. intros H K n. exact (aeq_trans _ _ _ (H n) (K n)). Qed.
Lemma def1_ceq c c' o : ceq c c' -> ceq (def1 c o) (def1 c' o).
Proof.
  intros H n. rewrite !lookup_def1. specialize (H n). destruct (String.eqb (op_name o) n); [|exact H].
  destruct o as [m a w|m w]; cbn [op_on]; [|reflexivity].
  destruct (lookup c n) as [[l|p]|], (lookup c' n) as [[l'|p']|]; cbn in *; try tauto.
  intros args. rewrite !find_app, H. reflexivity.
Qed.
Lemma defs_ceq ops c c' : ceq c c' -> ceq (defs ops c) (defs ops c').
Proof. revert c c'. induction ops as [|o ops IH]; intros c c' H; [exact H|]. cbn. apply IH, def1_ceq, H. Qed.
Lemma resolve_ceq c c' u : ceq c c' -> resolve c u = resolve c' u.
Proof.
  intros H. destruct u as [n|n a]; cbn [resolve]; specialize (H n);
    destruct (lookup c n) as [[l|p]|], (lookup c' n) as [[l'|p']|]; cbn in H; try tauto; try congruence. now rewrite H.
Qed.

(** the overloads that a list of operations adds to a name *)
Fixpoint ovs (ops : list DefOp) (n : string) : list Overload :=
  match ops with
  | [] => []
  | Def m a w :: ops' => if String.eqb m n then (a, w) :: ovs ops' n else ovs ops' n
  | DefProp _ _ :: ops' => ovs ops' n
  end.
Lemma defs_meth ops n : (forall o, In o ops -> op_name o = n -> is_def o = true) -> forall c,
  match lookup c n with
  | Some (Meth l) => lookup (defs ops c) n = Some (Meth (l ++ ovs ops n))
  | _ => ovs ops n <> [] -> lookup (defs ops c) n = Some (Meth (ovs ops n))
  end.
Proof.
  induction ops as [|o ops IH]; intros H c.
  { cbn. destruct (lookup c n) as [[l|]|]; try (intros X; now elim X). now rewrite app_nil_r. }
  assert (H' : forall o, In o ops -> op_name o = n -> is_def o = true) by (intros; apply H; [now right|assumption]).
  specialize (IH H' (def1 c o)). rewrite lookup_def1 in IH. change (defs (o :: ops) c) with (defs ops (def1 c o)).
  destruct (String.eqb_spec (op_name o) n) as [E|N].
  - specialize (H o (or_introl eq_refl) E). destruct o as [m a w|]; [|discriminate]. cbn in E. subst m.
    cbn [op_on ovs] in *. rewrite String.eqb_refl. destruct (lookup c n) as [[l|]|].
    + rewrite IH, <- app_assoc. reflexivity.
    + intros _. exact IH.
    + intros _. exact IH.
  - assert (E : ovs (o :: ops) n = ovs ops n).
    { destruct o as [m a w|]; [|reflexivity]. cbn in N |- *. destruct (String.eqb_spec m n); [contradiction|reflexivity]. }
    rewrite E. exact IH.
Qed.
Lemma defs_none ops n : (forall o, In o ops -> op_name o <> n) -> forall c, lookup (defs ops c) n = lookup c n.
Proof.
  induction ops as [|o ops IH]; intros H c; [reflexivity|]. change (defs (o :: ops) c) with (defs ops (def1 c o)).
  rewrite IH by (intros o' I; apply H; now right). rewrite lookup_def1.
  destruct (String.eqb_spec (op_name o) n) as [E|N]; [|reflexivity]. now elim (H o (or_introl eq_refl)).
Qed.
Lemma defs_prop ops n : (exists o, In o ops /\ op_name o = n) -> (forall o, In o ops -> op_name o = n -> is_def o = false) ->
  forall c c', lookup (defs ops c) n = lookup (defs ops c') n.
Proof.
  induction ops as [|o ops IH] using rev_ind; intros (o0 & I & E) H c c'; [destruct I|].
  rewrite !defs_snoc, !lookup_def1. destruct (String.eqb_spec (op_name o) n) as [E'|N].
  - assert (J : In o (ops ++ [o])) by (apply in_or_app; right; now left). specialize (H o J E'). destruct o; [discriminate|reflexivity].
  - apply IH; [|intros o' J; apply H; apply in_or_app; now left].
    apply in_app_or in I. destruct I as [I|[<-|[]]]; [now exists o0|contradiction].
Qed.

Lemma defs_idem ops : uniform ops -> ceq (defs ops (defs ops [])) (defs ops []).
Proof.
  intros U n. destruct (existsb (fun o => String.eqb (op_name o) n) ops) eqn:X.
  - apply existsb_exists in X. destruct X as (o & I & E). apply String.eqb_eq in E. destruct (is_def o) eqn:D.
    + assert (H : forall o', In o' ops -> op_name o' = n -> is_def o' = true) by (intros o' I' E'; rewrite (U o' o I' I); congruence).
      assert (NE : ovs ops n <> []).
      { clear U H. induction ops as [|a ops IH]; [destruct I|]. cbn [ovs]. destruct I as [->|I].
        - destruct o as [m b w|]; [|discriminate]. cbn in E. rewrite (proj2 (String.eqb_eq m n) E). discriminate.
        - specialize (IH I). destruct a as [m b w|]; [|exact IH]. destruct (String.eqb m n); [discriminate|exact IH]. }
      pose proof (defs_meth ops n H []) as A. cbn [lookup] in A. specialize (A NE).
      pose proof (defs_meth ops n H (defs ops [])) as B. rewrite A in B. rewrite A, B. cbn. intros args. rewrite find_app.
      match goal with |- context [find ?f _] => destruct (find f (ovs ops n)); reflexivity end.
    + rewrite (defs_prop ops n (ex_intro _ o (conj I E))) with (c' := []); [apply aeq_refl|].
      intros o' I' E'. rewrite (U o' o I' I); congruence.
  - rewrite defs_none; [apply aeq_refl|]. intros o I E. apply not_true_iff_false in X. apply X. apply existsb_exists.
    exists o. split; [exact I|now apply String.eqb_eq].
Qed.
Lemma defs_iter ops n : uniform ops -> ceq (Nat.iter (S n) (defs ops) []) (defs ops []).
Proof.
  intros U. induction n as [|n IH]; [apply ceq_refl|]. change (Nat.iter (S (S n)) (defs ops) []) with (defs ops (Nat.iter (S n) (defs ops) [])).
  eapply ceq_trans; [apply defs_ceq, IH|apply defs_idem, U].
Qed.

(** ** The registry *)
Lemma cpp_eqb_eq a b : cpp_eqb a b = true <-> a = b.
Proof.
  destruct a, b; cbn; split; try congruence; intros H;
    repeat match goal with H : (_ && _)%bool = true |- _ => apply andb_prop in H; destruct H end;
    repeat match goal with H : Nat.eqb _ _ = true |- _ => apply Nat.eqb_eq in H end; subst; try reflexivity;
    injection H; intros; subst; now rewrite ?Nat.eqb_refl.
Qed.
Lemma cpp_eqb_refl a : cpp_eqb a a = true. Proof. now apply cpp_eqb_eq. Qed.
Lemma classOf_onClass f T s U : classOf (onClass f T s) U = if cpp_eqb T U then option_map f (classOf s U) else classOf s U.
Proof.
  induction s as [|[V c] s IH]; [cbn; destruct (cpp_eqb T U); reflexivity|]. cbn [onClass map fst snd classOf].
  fold (onClass f T s). destruct (cpp_eqb V T) eqn:E; cbn [classOf].
  - apply cpp_eqb_eq in E. subst V. destruct (cpp_eqb T U) eqn:F; [reflexivity|exact IH].
  - destruct (cpp_eqb V U) eqn:F; [|exact IH]. apply cpp_eqb_eq in F. subst V.
    destruct (cpp_eqb T U) eqn:G; [|reflexivity]. apply cpp_eqb_eq in G. subst T. now rewrite cpp_eqb_refl in E.
Qed.
Lemma classOf_app s T c U : classOf (s ++ [(T, c)]) U = match classOf s U with Some x => Some x | None => if cpp_eqb T U then Some c else None end.
Proof. induction s as [|[V d] s IH]; [reflexivity|]. cbn. destruct (cpp_eqb V U); [reflexivity|exact IH]. Qed.
Lemma map_onClass f T s : map fst (onClass f T s) = map fst s.
Proof. unfold onClass. rewrite map_map. apply map_ext. intros [U c]. cbn. destruct (cpp_eqb U T); reflexivity. Qed.
Lemma classOf_in s T : In T (map fst s) <-> classOf s T <> None.
Proof.
  induction s as [|[V d] s IH]; cbn; [split; [intros []|now intros X; elim X]|]. destruct (cpp_eqb V T) eqn:E.
  - apply cpp_eqb_eq in E. split; [discriminate|auto].
  - rewrite <- IH. split; [intros [->|I]; [now rewrite cpp_eqb_refl in E|exact I]|auto].
Qed.

(** all registrations are of this form: make the class, then add the members, depending on the
    flag *)
Definition touch (isNew : bool) (g : bool -> bool) (T : CppType) (ops : list DefOp) (s : Registry) : Registry :=
  let '(s, second) := insertClass isNew s T in if g second then onClass (defs ops) T s else s.
Lemma touch_class isNew g T ops s U : classOf (touch isNew g T ops s) U =
  if cpp_eqb T U then Some (match classOf s U with
                            | None => if g isNew then defs ops [] else []
                            | Some c => if g (negb isNew) then defs ops c else c
                            end)
  else classOf s U.
Proof.
  unfold touch, insertClass. destruct (cpp_eqb T U) eqn:E.
  - apply cpp_eqb_eq in E. subst U. destruct (classOf s T) as [c|] eqn:C.
    + destruct (g (negb isNew)); rewrite ?classOf_onClass, ?cpp_eqb_refl, C; reflexivity.
    + destruct (g isNew); rewrite ?classOf_onClass, ?cpp_eqb_refl, classOf_app, C, cpp_eqb_refl; reflexivity.
  - destruct (classOf s T) as [c|].
    + destruct (g (negb isNew)); rewrite ?classOf_onClass, ?E; reflexivity.
    + destruct (g isNew); rewrite ?classOf_onClass, ?E, classOf_app, E; destruct (classOf s U); reflexivity.
Qed.
Lemma touch_keys isNew g T ops s : exists l, map fst (touch isNew g T ops s) = (map fst s ++ l)%list.
Proof.
  unfold touch, insertClass. destruct (classOf s T) as [c|].
  - exists []. rewrite app_nil_r. destruct (g _); rewrite ?map_onClass; reflexivity.
  - exists [T]. destruct (g _); rewrite ?map_onClass, map_app; reflexivity.
Qed.
Lemma touch_nodup isNew g T ops s : NoDup (map fst s) -> NoDup (map fst (touch isNew g T ops s)).
Proof.
  intros H. unfold touch, insertClass. destruct (classOf s T) as [c|] eqn:C.
  - destruct (g _); rewrite ?map_onClass; exact H.
  - assert (X : NoDup (map fst (s ++ [(T, [])])%list)).
    { rewrite map_app. cbn. apply NoDup_Add with (a := T) (l := map fst s); [rewrite <- (app_nil_r (map fst s)) at 1; apply Add_app|].
      split; [exact H|]. intros I. now apply classOf_in in I. }
    destruct (g _); rewrite ?map_onClass; exact X.
Qed.

Definition yes (b : bool) : bool := b.
Definition always (_ : bool) : bool := true.
Lemma quad_touch isNew ct d s : registerQuadratureRule isNew ct d s =
  touch isNew yes (TQuadRule ct d) quadRuleOps (touch isNew yes (TQuadPoint ct d) quadPointOps s).
Proof.
  unfold registerQuadratureRule, touch, yes. destruct (insertClass isNew s (TQuadPoint ct d)) as [s1 b1].
  destruct (insertClass isNew (if b1 then _ else s1) (TQuadRule ct d)) as [s2 b2]. reflexivity.
Qed.
Lemma ref_touch isNew d s : registerReferenceElement isNew d s =
  registerQuadratureRule isNew ctDouble d (touch isNew always (TRefElement d) (refElementOps d) s).
Proof. unfold registerReferenceElement, touch, always. destruct (insertClass isNew s (TRefElement d)). reflexivity. Qed.
Lemma ml_touch isNew ct d e s : registerMultiLinearGeometryType isNew ct d e s =
  touch isNew negb (TMLGeometry ct d e) (mlGeometryOps d e) s.
Proof. reflexivity. Qed.

(** the members of the class of a type, and the flag with which they are added *)
Definition opsOf (T : CppType) : list DefOp :=
  match T with
  | TQuadPoint _ _ => quadPointOps
  | TQuadRule _ _ => quadRuleOps
  | TRefElement d => refElementOps d
  | TMLGeometry _ d e => mlGeometryOps d e
  end.
Definition guardOf (T : CppType) : bool -> bool :=
  match T with TRefElement _ => always | TMLGeometry _ _ _ => negb | _ => yes end.
(** a registration registers this type *)
Definition concerns (T : CppType) (r : Reg) : bool :=
  match r with
  | RegQuad ct d => cpp_eqb (TQuadPoint ct d) T || cpp_eqb (TQuadRule ct d) T
  | RegRef d => cpp_eqb (TRefElement d) T || cpp_eqb (TQuadPoint ctDouble d) T || cpp_eqb (TQuadRule ctDouble d) T
  | RegML ct d e => cpp_eqb (TMLGeometry ct d e) T
  end.
Definition times (T : CppType) (h : list Reg) : nat := List.length (filter (concerns T) h).

Lemma reg1_class isNew s r T : classOf (reg1 isNew s r) T =
  if concerns T r then Some (match classOf s T with
                             | None => if guardOf T isNew then defs (opsOf T) [] else []
                             | Some c => if guardOf T (negb isNew) then defs (opsOf T) c else c
                             end)
  else classOf s T.
Proof.
  destruct r as [ct d|d|ct d e]; cbn [reg1 concerns].
  - rewrite quad_touch, !touch_class. destruct T; cbn [cpp_eqb orb opsOf guardOf]; rewrite ?orb_false_r; try reflexivity;
      destruct (_ && _)%bool; reflexivity.
  - rewrite ref_touch, quad_touch, !touch_class. destruct T; cbn [cpp_eqb orb opsOf guardOf]; rewrite ?orb_false_r; try reflexivity.
    destruct (Nat.eqb_spec d dim) as [->|]; reflexivity.
  - rewrite ml_touch, touch_class. destruct T; cbn [cpp_eqb opsOf guardOf]; try reflexivity.
    destruct (Nat.eqb_spec ct ct0) as [->|], (Nat.eqb_spec d dim) as [->|], (Nat.eqb_spec e coorddim) as [->|]; reflexivity.
Qed.
Lemma regs_snoc isNew h r : regs isNew (h ++ [r]) = reg1 isNew (regs isNew h) r.
Proof. unfold regs. now rewrite fold_left_app. Qed.
Lemma times_snoc T h r : times T (h ++ [r]) = (times T h + if concerns T r then 1 else 0)%nat.
Proof. unfold times. rewrite filter_app, app_length. cbn. destruct (concerns T r); reflexivity. Qed.

Definition b2n (b : bool) : nat := if b then 1 else 0.
Lemma class_after isNew h T : classOf (regs isNew h) T =
  match times T h with
  | O => None
  | S k => Some (Nat.iter (b2n (guardOf T isNew) + (if guardOf T (negb isNew) then k else 0)) (defs (opsOf T)) [])
  end.
Proof.
  induction h as [|r h IH] using rev_ind; [reflexivity|].
  rewrite regs_snoc, times_snoc, reg1_class, IH. destruct (concerns T r); [|now rewrite Nat.add_0_r].
  rewrite Nat.add_1_r. destruct (times T h) as [|k].
  - destruct (guardOf T isNew), (guardOf T (negb isNew)); reflexivity.
  - destruct (guardOf T (negb isNew)); [|reflexivity]. rewrite Nat.add_succ_r. reflexivity.
Qed.
Lemma regs_nodup isNew h : NoDup (map fst (regs isNew h)).
Proof.
  induction h as [|r h IH] using rev_ind; [constructor|]. rewrite regs_snoc.
  destruct r; cbn [reg1]; rewrite ?ref_touch, ?quad_touch, ?ml_touch; repeat apply touch_nodup; exact IH.
Qed.
Lemma regs_grow isNew h h' : exists l, map fst (regs isNew (h ++ h')) = (map fst (regs isNew h) ++ l)%list.
Proof.
  induction h' as [|r h' IH] using rev_ind; [exists []; now rewrite !app_nil_r|].
  rewrite app_assoc, regs_snoc. destruct IH as (l & IH).
  assert (G : forall s, exists l, map fst (reg1 isNew s r) = (map fst s ++ l)%list).
  { intros s. destruct r as [ct d|d|ct d e]; cbn [reg1]; rewrite ?ref_touch, ?quad_touch, ?ml_touch.
    - destruct (touch_keys isNew yes (TQuadPoint ct d) quadPointOps s) as (a & A).
      destruct (touch_keys isNew yes (TQuadRule ct d) quadRuleOps (touch isNew yes (TQuadPoint ct d) quadPointOps s)) as (b & B).
      exists (a ++ b)%list. now rewrite B, A, app_assoc.
    - set (s0 := touch isNew always (TRefElement d) (refElementOps d) s).
      destruct (touch_keys isNew always (TRefElement d) (refElementOps d) s) as (z & Z). fold s0 in Z.
      destruct (touch_keys isNew yes (TQuadPoint ctDouble d) quadPointOps s0) as (a & A).
      destruct (touch_keys isNew yes (TQuadRule ctDouble d) quadRuleOps (touch isNew yes (TQuadPoint ctDouble d) quadPointOps s0)) as (b & B).
      exists (z ++ a ++ b)%list. now rewrite B, A, Z, !app_assoc.
    - apply touch_keys. }
  destruct (G (regs isNew (h ++ h'))) as (l' & E). exists (l ++ l')%list. now rewrite E, IH, app_assoc.
Qed.
Lemma times_pos T h : (exists r, In r h /\ concerns T r = true) <-> (0 < times T h)%nat.
Proof.
  unfold times. split.
  - intros (r & I & C). assert (X : In r (filter (concerns T) h)) by (now apply filter_In). destruct (filter _ h); [destruct X|cbn; lia].
  - destruct (filter (concerns T) h) as [|r l] eqn:E; [cbn; lia|]. intros _. exists r. apply filter_In. rewrite E. now left.
Qed.
Lemma ops_ok T : uniform (opsOf T) /\ NoDup (map fst (map use_of (opsOf T))).
Proof.
  split; [apply uniformb_ok|apply nodupb_ok]; (destruct T; cbn [opsOf]; [reflexivity|reflexivity| |];
    [unfold refElementOps; destruct (Nat.ltb 0 dim); reflexivity|unfold mlGeometryOps; destruct (Nat.leb dim coorddim); reflexivity]).
Qed.
