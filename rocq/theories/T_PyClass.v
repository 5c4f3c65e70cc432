(** C78: the classes of the Python module over all histories of registrations, the constructor
    of MultiLinearGeometry in Python, and the wrapper of quadpy. *)
From Coq Require Import NArith ZArith PeanoNat Bool List Lia Reals Lra String.
From Verif Require Import M_Type M_TypeIndex M_RefTopo M_RefGeo M_MultiLinear M_PyRules M_PyClass S_Topo S_MultiLinear
  P_Topo P_Type P_Type2 P_RefTopo2 P_ML1 P_ML2 P_PyRules P_PyClass T_TypeString T_RefGeo.
Import ListNotations.
Local Open Scope string_scope.
Local Open Scope list_scope.

(** ** What the classes are to offer: what is read or called, and what it does *)
Definition interface (T : CppType) : list (Use * string) :=
  match T with
  | TQuadPoint _ _ => [(CallF "__init__" [AVector; ANumber], "QP(x,w)"); (Get "position", "position()"); (Get "weight", "weight()")]
  | TQuadRule _ _ => [(Get "order", "order()"); (Get "type", "type()"); (CallF "get" [], "quadratureToNumpy"); (CallF "__iter__" [], "iterator")]
  | TRefElement d =>
      [(Get "dimension", "dimension"); (CallF "size" [AInt], "size(c)"); (CallF "size" [AInt; AInt; AInt], "size(i,c,cc)");
       (CallF "size" [ATuple; AInt], "size(i,c,cc)"); (CallF "type" [AInt; AInt], "type(i,c)"); (CallF "type" [ATuple], "type(i,c)");
       (CallF "types" [AInt], "types(c)"); (CallF "subEntity" [AInt; AInt; AInt; AInt], "subEntity(i,c,ii,cc)");
       (CallF "subEntity" [ATuple; ATuple], "subEntity(i,c,ii,cc)"); (CallF "subEntities" [AInt; AInt; AInt], "subEntities(i,c,cc)");
       (CallF "subEntities" [ATuple; AInt], "subEntities(i,c,cc)"); (CallF "position" [AInt; AInt], "position(i,c)");
       (CallF "position" [ATuple], "position(i,c)"); (CallF "positions" [AInt], "positions(c)"); (Get "center", "position(0,0)");
       (Get "corners", "corners"); (Get "volume", "volume()")]
      ++ match d with O => [] | S _ => [(CallF "integrationOuterNormal" [AInt], "integrationOuterNormal(i)"); (Get "integrationOuterNormals", "integrationOuterNormals")] end
  | TMLGeometry _ d e =>
      [(CallF "__init__" [AType; AList], "MGeometry(type,corners)")]
      ++ (if le_dec d e then [(CallF "toLocal" [AVector], "local(x)"); (CallF "jacobianInverseTransposed" [AVector], "jacobianInverseTransposed(x)")] else [])
      ++ [(Get "affine", "affine()"); (Get "type", "type()"); (Get "corners", "corners()"); (Get "center", "center()"); (Get "volume", "volume()");
          (CallF "corner" [AInt], "corner(i)"); (CallF "integrationElement" [AVector], "integrationElement(x)");
          (CallF "jacobianTransposed" [AVector], "jacobianTransposed(x)"); (CallF "toGlobal" [AVector], "global(x)")]
  end.
Lemma interface_ops T : interface T = map use_of (opsOf T).
Proof.
  destruct T as [c d|c d|d|c d e]; [reflexivity|reflexivity| |]; cbn [interface opsOf].
  - destruct d; reflexivity.
  - unfold mlGeometryOps. destruct (le_dec d e) as [L|L]; [rewrite (proj2 (Nat.leb_le _ _) L)|rewrite (proj2 (Nat.leb_gt _ _)) by lia]; reflexivity.
Qed.
(** a class offers this and nothing else *)
Definition offers (c : Class) (table : list (Use * string)) : Prop := forall u w, resolve c u = Ret w <-> In (u, w) table.
Definition useless (c : Class) : Prop := forall u w, resolve c u <> Ret w.

Lemma offers_ops T : offers (defs (opsOf T) []) (interface T).
Proof. intros u w. rewrite interface_ops. apply offers_gen; apply ops_ok. Qed.
Lemma offers_iter T n : offers (Nat.iter (S n) (defs (opsOf T)) []) (interface T).
Proof. intros u w. rewrite (resolve_ceq _ (defs (opsOf T) [])) by (apply defs_iter, ops_ok). apply offers_ops. Qed.
Lemma useless_nil : useless [].
Proof. intros [n|n a] w; cbn; discriminate. Qed.

(** In every history of registrations every type that was registered has one class, no other
    type has one, and a class keeps its identity. *)
Theorem C78_one_class : forall isNew h,
  NoDup (map fst (regs isNew h))
  /\ (forall T, In T (map fst (regs isNew h)) <-> exists r, In r h /\ concerns T r = true)
  /\ (forall h', exists l, map fst (regs isNew (h ++ h')) = map fst (regs isNew h) ++ l).
Proof.
  intros isNew h. split; [apply regs_nodup|]. split; [|apply regs_grow].
  intros T. rewrite classOf_in, class_after, times_pos. destruct (times T h); split; try lia; try discriminate. now intros X; elim X.
Qed.

(** If insertClass(..).second is true for new classes: the classes of quadrature points, rules
    and reference elements offer their interfaces after every history, however often and in
    whichever order the modules were loaded. *)
Theorem C78_quadrature_classes : forall h T, (forall ct d e, T <> TMLGeometry ct d e) ->
  (exists r, In r h /\ concerns T r = true) ->
  exists c, classOf (regs true h) T = Some c /\ offers c (interface T).
Proof.
  intros h T NT H. apply times_pos in H. rewrite class_after. destruct (times T h) as [|k]; [lia|].
  eexists. split; [reflexivity|]. destruct T as [c d|c d|d|c d e]; cbn [guardOf always yes negb b2n]; try apply offers_iter. now elim (NT c d e).
Qed.

(** The classes of reference elements do so whatever the flag means: they are registered
    unconditionally, and the overloads that are added again are never reached. *)
Theorem C78_reference_elements : forall isNew h d, In (RegRef d) h ->
  exists c, classOf (regs isNew h) (TRefElement d) = Some c /\ offers c (interface (TRefElement d)).
Proof.
  intros isNew h d I. assert (H : (0 < times (TRefElement d) h)%nat).
  { apply times_pos. exists (RegRef d). split; [exact I|]. cbn. now rewrite Nat.eqb_refl. }
  rewrite class_after. destruct (times _ h) as [|k]; [lia|]. eexists. split; [reflexivity|]. cbn [guardOf always b2n]. apply offers_iter.
Qed.

(** MultiLinearGeometry tests the flag the other way round: the first registration defines no
    member, the class offers its interface from the second registration on. *)
Theorem C78_geometry_class : forall h ct d e, let T := TMLGeometry ct d e in
  match times T h with
  | O => classOf (regs true h) T = None
  | 1 => exists c, classOf (regs true h) T = Some c /\ useless c
  | _ => exists c, classOf (regs true h) T = Some c /\ offers c (interface T)
  end.
Proof.
  intros h ct d e T. rewrite class_after. destruct (times T h) as [|[|k]]; [reflexivity| |]; eexists; (split; [reflexivity|]).
  - apply useless_nil.
  - cbn [T guardOf negb b2n]. change (0 + S k)%nat with (S k). apply (offers_iter T).
Qed.
Theorem C78_geometry_class_refuted : forall ct d e, exists h c,
  In (RegML ct d e) h /\ classOf (regs true h) (TMLGeometry ct d e) = Some c /\ useless c.
Proof.
  intros ct d e. exists [RegML ct d e], []. split; [now left|]. split; [|apply useless_nil].
  cbn. now rewrite !Nat.eqb_refl.
Qed.
(** Whatever the flag of dune-common means, one of the two tests is wrong. *)
Theorem C78_flag_refuted : forall isNew, exists h T c,
  (exists r, In r h /\ concerns T r = true) /\ classOf (regs isNew h) T = Some c /\ useless c.
Proof.
  intros []; [exists [RegML 0 2 2], (TMLGeometry 0 2 2), []|exists [RegQuad 0 2], (TQuadRule 0 2), []];
    (split; [eexists; split; [now left|reflexivity]|split; [reflexivity|apply useless_nil]]).
Qed.

(** Why the property [type] of reference elements is switched off (referenceelements.hh:189-197):
    it would replace the function. *)
Theorem C78_type_property : forall d, let c := defs (refElementOps d ++ [DefProp "type" "type()"]) [] in
  (forall args w, resolve c (CallF "type" args) <> Ret w) /\ resolve c (Get "type") = Ret "type()".
Proof. intros d c. subst c. rewrite defs_snoc. unfold resolve. rewrite lookup_def1. cbn. split; [discriminate|reflexivity]. Qed.

Example C78_registry_example :
  let h := [RegRef 2; RegQuad 0 2; RegRef 2; RegML 0 2 3; RegQuad 1 2] in
  map fst (regs true h) = [TRefElement 2; TQuadPoint 0 2; TQuadRule 0 2; TMLGeometry 0 2 3; TQuadPoint 1 2; TQuadRule 1 2]
  /\ option_map (fun c => resolve c (CallF "size" [ATuple; AInt])) (classOf (regs true h) (TRefElement 2)) = Some (Ret "size(i,c,cc)")
  /\ option_map (fun c => resolve c (CallF "__init__" [AType; AList])) (classOf (regs true h) (TMLGeometry 0 2 3)) = Some (Raise TypeError)
  /\ option_map (fun c => resolve c (CallF "__init__" [AType; AList])) (classOf (regs true (h ++ [RegML 0 2 3])) (TMLGeometry 0 2 3)) = Some (Ret "MGeometry(type,corners)")
  /\ option_map (fun c => resolve c (CallF "toLocal" [AVector])) (classOf (regs true [RegML 0 3 2; RegML 0 3 2]) (TMLGeometry 0 3 2)) = Some (Raise AttributeError).
Proof. repeat split. Qed.

(** ** The constructor *)
Theorem C78_constructor : forall id r corners,
  match py_geometry id r corners with
  | Ret g => corners = map Some (ml_corners g) /\ ml_id g = id /\ ml_ref g = r
  | Raise e => e = TypeError /\ In None corners
  | Undef => False
  end.
Proof.
  intros id r corners. unfold py_geometry.
  assert (A : match py_newGeometry corners with Ret l => corners = map Some l | Raise e => e = TypeError /\ In None corners | Undef => False end).
  { induction corners as [|[v|] cs IH]; cbn [py_newGeometry]; [reflexivity| |split; [reflexivity|now left]].
    destruct (py_newGeometry cs) as [l|e|]; [cbn; now rewrite <- IH|destruct IH; split; [assumption|now right]|exact IH]. }
  destruct (py_newGeometry corners); auto.
Qed.
(** with the right number of corners, corner(i) is defined exactly for 0 <= i < corners() and
    is the i-th entry of the list *)
Theorem C78_corner : forall id dim r corners g i, py_geometry id r corners = Ret g ->
  List.length corners = size id dim dim ->
  py_corner dim g i = if (0 <=? i)%Z && (i <? Z.of_nat (List.length corners))%Z
                      then nth (Z.to_nat i) corners None else None.
Proof.
  intros id dim r corners g i H L. pose proof (C78_constructor id r corners) as C. rewrite H in C. destruct C as (C & E & _).
  unfold py_corner, mlg_cornercount, mlg_corner. rewrite E, <- L.
  destruct (Z.leb_spec 0 i), (Z.ltb_spec i 0); try lia; [|reflexivity]. cbn [orb andb].
  destruct (Z.leb_spec (Z.of_nat (List.length corners)) i), (Z.ltb_spec i (Z.of_nat (List.length corners))); try lia; [reflexivity|].
  rewrite C. generalize (Z.to_nat i). intros n. clear. revert n. induction (ml_corners g) as [|v l IH]; intros [|n]; cbn; auto.
Qed.
(** corners that are missing are not noticed by the constructor: then the evaluation of the map
    is undefined at every point *)
Lemma glob_length cdim tol tid mydim : forall dim add cit df x rf y c, (dim <= mydim)%nat ->
  ml_glob cdim tol tid mydim dim add cit df x rf y = Some c -> (nv (lt tid dim) + List.length (fst c) = List.length cit)%nat.
Proof.
  induction dim; intros add cit df x rf y c Hd.
  - cbn [ml_glob]. destruct cit as [|o cit]; [discriminate|]. intros H. injection H as <-. reflexivity.
  - unfold lt in *. cbn [topo_of]. cbn [ml_glob]. rewrite isPrism_level by assumption.
    destruct (N.testbit (N.lor tid 1) (N.of_nat dim)); cbn [nv].
    + destruct (ml_glob cdim tol tid mydim dim add cit df x (rf * (1 - df * x dim)) y) as [[c1 y1]|] eqn:E; [|discriminate].
      cbn [obind]. intros H. apply IHdim in E, H; try lia. cbn [fst] in E. lia.
    + match goal with |- obind ?m _ = _ -> _ => destruct m as [[c1 y1]|] eqn:E; [|discriminate] end. cbn [obind].
      destruct c1 as [|tip c1]; [discriminate|]. intros H. injection H as <-. cbn [fst].
      destruct (away tol (1 - df * x dim)); apply IHdim in E; try lia; cbn [fst List.length] in E; lia.
Qed.
Theorem C78_missing_corners : forall id dim cdim tol jv r corners g x, py_geometry id r corners = Ret g ->
  (List.length corners < size id dim dim)%nat -> mlg_global dim cdim tol jv g x = None.
Proof.
  intros id dim cdim tol jv r corners g x H L. pose proof (C78_constructor id r corners) as C. rewrite H in C. destruct C as (C & E & _).
  unfold mlg_global. destruct (ml_glob _ _ _ _ _ _ _ _ _ _ _) as [c|] eqn:G; [|reflexivity]. exfalso.
  apply glob_length in G; [|lia]. rewrite E, nv_lt, nv_size, C16_corner_count in G. rewrite C, map_length in L. lia.
Qed.
Theorem C78_missing_corners_refuted : exists id dim r corners g i,
  py_geometry id r corners = Ret g /\ re_infos id dim = Some r /\ (0 <= i < Z.of_nat (mlg_cornercount dim g))%Z
  /\ py_corner dim g i = None /\ forall cdim tol jv x, mlg_global dim cdim tol jv g x = None.
Proof.
  destruct (re_infos 0 2) as [r|] eqn:E; [|vm_compute in E; discriminate].
  exists 0%N, 2%nat, r, [Some vzero; Some vzero]. eexists. exists 2%Z. split; [reflexivity|]. split; [exact E|]. split; [vm_compute; intuition congruence|].
  split; [reflexivity|]. intros cdim tol jv x. eapply (C78_missing_corners 0 2 cdim tol jv r [Some vzero; Some vzero]); [reflexivity|vm_compute; lia].
Qed.
(** surplus entries of the list are ignored *)
Theorem C78_surplus_corners : forall id dim cdim tol jv r l l' x,
  List.length l = size id dim dim ->
  mlg_global dim cdim tol jv {| ml_id := id; ml_ref := r; ml_corners := l ++ l' |} x
  = mlg_global dim cdim tol jv {| ml_id := id; ml_ref := r; ml_corners := l |} x.
Proof.
  intros id dim cdim tol jv r l l' x L. unfold mlg_global. cbn [ml_id ml_corners].
  assert (NV : nv (lt id dim) = List.length l) by (now rewrite nv_lt, nv_size, C16_corner_count).
  rewrite !glob_spec by (rewrite ?app_length; lia). cbn [option_map snd]. f_equal.
  apply FunctionalExtensionality.functional_extensionality. intros k. unfold vset. destruct (Nat.ltb k cdim); [|reflexivity]. f_equal. f_equal.
  unfold comb. apply P_RSum.rsum_ext. intros i Hi. rewrite app_nth1 by lia. reflexivity.
Qed.
Print Assumptions C78_one_class.
Print Assumptions C78_quadrature_classes.
Print Assumptions C78_reference_elements.
Print Assumptions C78_geometry_class.
Print Assumptions C78_geometry_class_refuted.
Print Assumptions C78_flag_refuted.
Print Assumptions C78_type_property.
Print Assumptions C78_constructor.
Print Assumptions C78_corner.
Print Assumptions C78_missing_corners.
Print Assumptions C78_missing_corners_refuted.
Print Assumptions C78_surplus_corners.
