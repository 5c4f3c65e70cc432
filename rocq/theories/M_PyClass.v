(** Model of the registration of the Python classes of dune-geometry
    (dune/python/geometry/multilineargeometry.hh, quadraturerules.hh, referenceelements.hh,
    python/dune/geometry/registerrefelem.hh), of the constructor of the Python class of
    MultiLinearGeometry, and of python/dune/geometry/quadpy.py.

    Simplifications: an attribute of a class is a property or a list of overloads; an overload
    is the kinds of its arguments and a name for what it does, arguments are positional and of
    exactly these kinds; the registration of field vectors and matrices (of dune-common), the
    functions general and rule of the modules (see M_PyRules), the names of the classes in
    their modules and the doc strings are left out.
    insertClass belongs to dune-common: the model has the class of a type in a registry, and
    takes what the second component of the result means as a parameter. *)
From Coq Require Import NArith ZArith PeanoNat Bool List Reals String.
From Verif Require Import M_Type M_TypeIndex M_RefTopo M_RefGeo M_MultiLinear M_PyRules.
Import ListNotations.
Local Open Scope string_scope.

(** ** Classes *)
Inductive ArgKind := AInt | ATuple | AVector | ANumber | AType | AList.
Definition argkind_eqb (a b : ArgKind) : bool :=
  match a, b with
  | AInt, AInt | ATuple, ATuple | AVector, AVector | ANumber, ANumber | AType, AType | AList, AList => true
  | _, _ => false
  end.
Fixpoint args_eqb (a b : list ArgKind) : bool :=
  match a, b with
  | [], [] => true
  | x :: a', y :: b' => argkind_eqb x y && args_eqb a' b'
  | _, _ => false
  end.
Definition Overload : Type := list ArgKind * string.
Inductive Attr := Meth (l : list Overload) | PropRO (what : string).
Definition Class : Type := list (string * Attr).
Fixpoint lookup (c : Class) (n : string) : option Attr :=
  match c with [] => None | (m, a) :: c' => if String.eqb m n then Some a else lookup c' n end.
Fixpoint setattr (c : Class) (n : string) (a : Attr) : Class :=
  match c with
  | [] => [(n, a)]
  | (m, b) :: c' => if String.eqb m n then (m, a) :: c' else (m, b) :: setattr c' n a
  end.

(** pybind11's def adds an overload at the end if the attribute is a function, and sets the
    attribute otherwise; def_property_readonly sets the attribute. *)
Inductive DefOp := Def (n : string) (args : list ArgKind) (what : string) | DefProp (n what : string).
Definition op_name (o : DefOp) : string := match o with Def n _ _ => n | DefProp n _ => n end.
Definition op_on (a : option Attr) (o : DefOp) : Attr :=
  match o with
  | Def _ args what => match a with Some (Meth l) => Meth (l ++ [(args, what)]) | _ => Meth [(args, what)] end
  | DefProp _ what => PropRO what
  end.
Definition def1 (c : Class) (o : DefOp) : Class := setattr c (op_name o) (op_on (lookup c (op_name o)) o).
Definition defs (ops : list DefOp) (c : Class) : Class := fold_left def1 ops c.

(** What a program can do with a class: read a property of an object, or call a function with
    arguments of given kinds.  The first overload that takes the arguments is called. *)
Inductive Use := Get (n : string) | CallF (n : string) (args : list ArgKind).
Definition resolve (c : Class) (u : Use) : Call string :=
  match u with
  | Get n => match lookup c n with Some (PropRO w) => Ret w | _ => Raise AttributeError end
  | CallF n args =>
      match lookup c n with
      | Some (Meth l) => match find (fun o => args_eqb (fst o) args) l with Some o => Ret (snd o) | None => Raise TypeError end
      | _ => Raise (if String.eqb n "__init__" then TypeError else AttributeError)
      end
  end.

(** ** The members, in the order of the source *)
(** quadraturerules.hh:65-68 *)
Definition quadPointOps : list DefOp :=
  [ Def "__init__" [AVector; ANumber] "QP(x,w)"; DefProp "position" "position()"; DefProp "weight" "weight()" ].
(** quadraturerules.hh:81-88 *)
Definition quadRuleOps : list DefOp :=
  [ DefProp "order" "order()"; DefProp "type" "type()"; Def "get" [] "quadratureToNumpy"; Def "__iter__" [] "iterator" ].
(** referenceelements.hh:109-233 *)
Definition refElementOps (dim : nat) : list DefOp :=
  [ DefProp "dimension" "dimension";
    Def "size" [AInt] "size(c)"; Def "size" [AInt; AInt; AInt] "size(i,c,cc)"; Def "size" [ATuple; AInt] "size(i,c,cc)";
    Def "type" [AInt; AInt] "type(i,c)"; Def "type" [ATuple] "type(i,c)"; Def "types" [AInt] "types(c)";
    Def "subEntity" [AInt; AInt; AInt; AInt] "subEntity(i,c,ii,cc)"; Def "subEntity" [ATuple; ATuple] "subEntity(i,c,ii,cc)";
    Def "subEntities" [AInt; AInt; AInt] "subEntities(i,c,cc)"; Def "subEntities" [ATuple; AInt] "subEntities(i,c,cc)";
    Def "position" [AInt; AInt] "position(i,c)"; Def "position" [ATuple] "position(i,c)"; Def "positions" [AInt] "positions(c)";
    DefProp "center" "position(0,0)"; DefProp "corners" "corners"; DefProp "volume" "volume()" ]
  ++ (if Nat.ltb 0 dim then
        [ Def "integrationOuterNormal" [AInt] "integrationOuterNormal(i)"; DefProp "integrationOuterNormals" "integrationOuterNormals" ]
      else []).
(** multilineargeometry.hh:71-100; lines 29-36, 81: toLocal and jacobianInverseTransposed *)
Definition mlGeometryOps (dim coorddim : nat) : list DefOp :=
  [ Def "__init__" [AType; AList] "MGeometry(type,corners)" ]
  ++ (if Nat.leb dim coorddim then
        [ Def "toLocal" [AVector] "local(x)"; Def "jacobianInverseTransposed" [AVector] "jacobianInverseTransposed(x)" ]
      else [])
  ++ [ DefProp "affine" "affine()"; DefProp "type" "type()"; DefProp "corners" "corners()"; DefProp "center" "center()";
       DefProp "volume" "volume()"; Def "corner" [AInt] "corner(i)"; Def "integrationElement" [AVector] "integrationElement(x)";
       Def "jacobianTransposed" [AVector] "jacobianTransposed(x)"; Def "toGlobal" [AVector] "global(x)" ].

(** ** The registry *)
(** C++ types; field types are numbers, [ctDouble] is double. *)
Definition ctDouble : nat := 0.
Inductive CppType := TQuadPoint (ct dim : nat) | TQuadRule (ct dim : nat) | TRefElement (dim : nat) | TMLGeometry (ct dim coorddim : nat).
Definition cpp_eqb (a b : CppType) : bool :=
  match a, b with
  | TQuadPoint c d, TQuadPoint c' d' => Nat.eqb c c' && Nat.eqb d d'
  | TQuadRule c d, TQuadRule c' d' => Nat.eqb c c' && Nat.eqb d d'
  | TRefElement d, TRefElement d' => Nat.eqb d d'
  | TMLGeometry c d e, TMLGeometry c' d' e' => Nat.eqb c c' && Nat.eqb d d' && Nat.eqb e e'
  | _, _ => false
  end.
(** The classes in the order in which they were made; a class is identified by its position. *)
Definition Registry : Type := list (CppType * Class).
Fixpoint classOf (s : Registry) (T : CppType) : option Class :=
  match s with [] => None | (U, c) :: s' => if cpp_eqb U T then Some c else classOf s' T end.
(** [cls] is a handle of the class of [T]: definitions change the class in the registry. *)
Definition onClass (f : Class -> Class) (T : CppType) (s : Registry) : Registry :=
  map (fun p => if cpp_eqb (fst p) T then (fst p, f (snd p)) else p) s.

Section Register.
(** the value of insertClass(..).second for a class that has just been made; the other value
    is returned for a class that existed *)
Variable isNew : bool.

Definition insertClass (s : Registry) (T : CppType) : Registry * bool :=
  match classOf s T with Some _ => (s, negb isNew) | None => ((s ++ [(T, [])])%list, isNew) end.

(** quadraturerules.hh:98-115 registerQuadratureRule<ctype,dim> *)
Definition registerQuadratureRule (ct dim : nat) (s : Registry) : Registry :=
  let '(s, second) := insertClass s (TQuadPoint ct dim) in
  let s := if second then onClass (defs quadPointOps) (TQuadPoint ct dim) s else s in
  let '(s, second) := insertClass s (TQuadRule ct dim) in
  if second then onClass (defs quadRuleOps) (TQuadRule ct dim) s else s.

(** referenceelements.hh:249-263 registerReferenceElementToModule<dim> with 95-246
    registerReferenceElements; second is not looked at *)
Definition registerReferenceElement (dim : nat) (s : Registry) : Registry :=
  let '(s, _) := insertClass s (TRefElement dim) in
  let s := onClass (defs (refElementOps dim)) (TRefElement dim) s in
  registerQuadratureRule ctDouble dim s.

(** multilineargeometry.hh:56-113 registerMultiLinearGeometryType<ctype,dim,coorddim> *)
Definition registerMultiLinearGeometryType (ct dim coorddim : nat) (s : Registry) : Registry :=
  let '(s, second) := insertClass s (TMLGeometry ct dim coorddim) in
  if negb second then onClass (defs (mlGeometryOps dim coorddim)) (TMLGeometry ct dim coorddim) s else s.

(** Modules are loaded one after the other, each of them registers something. *)
Inductive Reg := RegQuad (ct dim : nat) | RegRef (dim : nat) | RegML (ct dim coorddim : nat).
Definition reg1 (s : Registry) (r : Reg) : Registry :=
  match r with
  | RegQuad ct dim => registerQuadratureRule ct dim s
  | RegRef dim => registerReferenceElement dim s
  | RegML ct dim cd => registerMultiLinearGeometryType ct dim cd s
  end.
Definition regs (h : list Reg) : Registry := fold_left reg1 h [].
End Register.

(** ** The constructor of MultiLinearGeometry in Python, multilineargeometry.hh:71-77.
    An entry of the list that cannot be cast to a FieldVector raises (RuntimeError in
    pybind11, here TypeError).  The number of corners is not compared with the type. *)
Fixpoint py_newGeometry (corners : list (option Vec)) : Call (list Vec) :=
  match corners with
  | [] => Ret []
  | None :: _ => Raise TypeError
  | Some v :: corners' => match py_newGeometry corners' with Ret l => Ret (v :: l) | e => e end
  end.
(** dune/geometry/multilineargeometry.hh:203-215, 272-279: the geometry, corners() and
    corner(i), which has an assertion: [None] is a violated assertion, or the access to a
    corner that is not there *)
Definition py_geometry (id : N) (r : RefElement) (corners : list (option Vec)) : Call MLGeo :=
  match py_newGeometry corners with
  | Ret l => Ret {| ml_id := id; ml_ref := r; ml_corners := l |}
  | Raise e => Raise e
  | Undef => Undef
  end.
Definition py_corner (dim : nat) (g : MLGeo) (i : Z) : option Vec :=
  if (i <? 0)%Z || (Z.of_nat (mlg_cornercount dim g) <=? i)%Z then None else mlg_corner g (Z.to_nat i).

(** ** quadpy.py *)
Inductive Domain := QLine | QTriangle | QQuadrilateral | QTetrahedron | QHexahedron.
(** The vertices: a list of points, or a box given by its intervals (rectangle_points and
    cube_points belong to quadpy). *)
Inductive Vertices := VPoints (l : list (list R)) | VBox (l : list (R * R)).
Inductive QExc := QAttributeError | QTypeError | QValueError | QKeyError.
Inductive QCall (A : Type) := QRet (a : A) | QRaise (e : QExc).
Arguments QRet {A} _. Arguments QRaise {A} _.

(** lines 65-97: the branches in their order *)
Local Open Scope R_scope.
Definition quadpyDomain (t : GeometryType) : QCall (Domain * Vertices) :=
  if isLine t then QRet (QLine, VPoints [[0]; [1]])
  else if isTriangle t then QRet (QTriangle, VPoints [[0; 0]; [1; 0]; [0; 1]])
  else if isQuadrilateral t then QRet (QQuadrilateral, VBox [(0, 1); (0, 1)])
  else if isTetrahedron t then QRet (QTetrahedron, VPoints [[0; 0; 0]; [1; 0; 0]; [0; 1; 0]; [0; 0; 1]])
  else if isHexahedron t then QRet (QHexahedron, VBox [(0, 1); (0, 1); (0, 1)])
  else if isPyramidT t then QRaise QValueError
  else if isPrismT t then QRaise QValueError
  else QRaise QValueError.

(** quadDescription: an order and the name of a method, both may be None *)
Record Desc := mkDesc { ds_order : option Z; ds_method : option string }.
Definition optZ_eqb (a b : option Z) : bool := match a, b with Some x, Some y => Z.eqb x y | None, None => true | _, _ => false end.
Definition optS_eqb (a b : option string) : bool := match a, b with Some x, Some y => String.eqb x y | None, None => true | _, _ => false end.
Definition desc_eqb (a b : Desc) : bool := optZ_eqb (ds_order a) (ds_order b) && optS_eqb (ds_method a) (ds_method b).
(** truth values *)
Definition order_true (o : option Z) : bool := match o with Some z => negb (Z.eqb z 0) | None => false end.
Definition method_true (m : option string) : bool := match m with Some s => negb (String.eqb s "") | None => false end.

Section Quadpy.
(** A scheme of quadpy with its degree; getattr(quad, method); hashes. *)
Context {Scheme : Type} (scheme : Domain -> string -> option Scheme) (degree : Scheme -> Z).
Variable hpair : Z -> Z -> Z.
Variable hdesc : Desc -> Z.
Variable objHash : nat -> Z.

(** lines 22-53: QPQuadPyQuadrature; points and weights are computed by quadpy from the scheme
    and the vertices and are left out.  The order that is passed is stored but not used. *)
Record QPQuad := mkQP { qp_dom : Domain; qp_order : option Z; qp_method : string; qp_verts : Vertices; qp_scheme : Scheme }.
Definition newQuad (dv : Domain * Vertices) (d : Desc) : QCall QPQuad :=
  match ds_method d with
  | None => QRaise QTypeError
  | Some m => match scheme (fst dv) m with
              | None => QRaise QAttributeError
              | Some sc => QRet (mkQP (fst dv) (ds_order d) m (snd dv) sc)
              end
  end.
(** lines 50-51: the property order *)
Definition qp_degree (q : QPQuad) : Z := degree (qp_scheme q).

(** rule returns a module of quadpy or an object; objects have an identity *)
Inductive QResult := RModule (d : Domain) | RQuad (id : nat) (q : QPQuad).
Definition QKey : Type := Key * Desc.
Definition qkey_hash (k : QKey) : Z := hpair (key_hash objHash (fst k)) (hdesc (snd k)).
Definition qkey_eqb (a b : QKey) : bool := key_eqb (fst a) (fst b) && desc_eqb (snd a) (snd b).
Record QState := mkQS { qs_cache : list (QKey * (nat * QPQuad)); qs_next : nat }.
Definition qs_init : QState := mkQS [] 0.

(** lines 54-102 rule(gt, quadDescription) *)
Definition qrule (s : QState) (g : PyObj) (d : Desc) : QState * QCall QResult :=
  let k := (attr_type g, d) in
  match dget qkey_hash qkey_eqb (qs_cache s) k with
  | Some (i, q) => (s, QRet (RQuad i q))
  | None =>
      match fst k with
      | KType t =>
          match quadpyDomain t with
          | QRaise e => (s, QRaise e)
          | QRet dv =>
              if negb (method_true (ds_method d)) && negb (order_true (ds_order d)) then (s, QRet (RModule (fst dv)))
              else match newQuad dv d with
                   | QRaise e => (s, QRaise e)
                   | QRet q => (mkQS (dset qkey_hash qkey_eqb (qs_cache s) k (qs_next s, q)) (S (qs_next s)), QRet (RQuad (qs_next s) q))
                   end
          end
      | _ => (s, QRaise QAttributeError)      (* gt.dim *)
      end
  end.

(** lines 104-110 rules(methods): [methods] is a dictionary whose keys are objects; a bound
    method is not among them *)
Definition qrules (methods : PyObj -> option Desc) (s : QState) (g : PyObj) : QState * QCall QResult :=
  let fallback s :=
    match methods g with None => (s, QRaise QKeyError) | Some d => qrule s g d end in
  match g with
  | OEntity t =>
      match methods (OType t) with
      | None => (s, QRaise QKeyError)
      | Some d => match qrule s (OType t) d with
                  | (s', QRaise QAttributeError) => fallback s'
                  | r => r
                  end
      end
  | ORefElement _ => (s, QRaise QKeyError)
  | _ => fallback s
  end.

Definition qrun (l : list (PyObj * Desc)) (s : QState) : QState := fold_left (fun s c => fst (qrule s (fst c) (snd c))) l s.
End Quadpy.
