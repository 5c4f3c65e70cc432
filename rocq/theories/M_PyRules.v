(** Model of the Python layer of dune-geometry: python/dune/geometry/__init__.py,
    python/dune/geometry/_referenceelements.py, the functions rule() and general() of
    dune/python/geometry/referenceelements.hh and dune/python/geometry/quadraturerules.hh.

    Simplifications: an exception is its class; the arguments of the two cached functions are
    objects of one of four kinds ([PyObj]) and orders are Python integers or floats with an
    integral value; a Python object that is created and kept is a pair of a number (its
    identity) and its value; numbers are [R].  The hash of a tuple and whether a module can be
    imported or generated are parameters. *)
From Coq Require Import NArith ZArith PeanoNat Bool List Reals.
From Verif Require Import M_Type M_TypeIndex M_TypeString M_RefGeo M_RefTopo M_QuadFactory M_Quadrature M_Container.
Import ListNotations.

Inductive PyExc := AttributeError | TypeError | NameError | ImportError | DuneException.
(** A call returns, raises, or its C++ part has undefined behaviour. *)
Inductive Call (A : Type) := Ret (a : A) | Raise (e : PyExc) | Undef.
Arguments Ret {A} _. Arguments Raise {A} _. Arguments Undef {A}.

(** ** Python's dict: a key is found if its hash is that of the entry and == holds.
    A store replaces the value of the entry found, else it adds an entry. *)
Section Dict.
Context {K V : Type} (hash : K -> Z) (eqb : K -> K -> bool).
Definition same_key (k k' : K) : bool := Z.eqb (hash k) (hash k') && eqb k k'.
Definition dget (d : list (K * V)) (k : K) : option V :=
  option_map snd (find (fun kv => same_key (fst kv) k) d).
Fixpoint dset (d : list (K * V)) (k : K) (v : V) : list (K * V) :=
  match d with
  | [] => [(k, v)]
  | (k', v') :: d' => if same_key k' k then (k', v) :: d' else (k', v') :: dset d' k v
  end.
End Dict.

(** ** What can be passed as geometryType: a GeometryType; an object with a property [type]
    that is a GeometryType (an entity, a geometry, a quadrature rule); a reference element,
    whose attribute [type] is a method (referenceelements.hh:121-125, 189-196); any other
    hashable object, without attributes [type] and [dim]. *)
Inductive PyObj := OType (t : GeometryType) | OEntity (t : GeometryType) | ORefElement (n : nat) | OOther (n : nat).
(** What the name geometryType is bound to after the first try statement
    (__init__.py:18-21, _referenceelements.py:30-33). *)
Inductive Key := KType (t : GeometryType) | KMethod (n : nat) | KOther (n : nat).
Definition attr_type (o : PyObj) : Key :=
  match o with OType t => KType t | OEntity t => KType t | ORefElement n => KMethod n | OOther n => KOther n end.
(** type.hh:216, 218: == and __hash__ of GeometryType; other objects are equal to nothing but
    themselves. *)
Definition key_eqb (a b : Key) : bool :=
  match a, b with
  | KType s, KType t => gt_eqb s t
  | KMethod m, KMethod n => Nat.eqb m n
  | KOther m, KOther n => Nat.eqb m n
  | _, _ => false
  end.
Definition key_hash (objHash : nat -> Z) (a : Key) : Z :=
  match a with KType t => Z.of_N (pyHash t) | KMethod n => objHash n | KOther n => objHash n end.
(** geometryType.dim *)
Definition attr_dim (k : Key) : option nat :=
  match k with KType t => Some (gt_dim t) | _ => None end.

(** Orders: == and hash do not distinguish 2 and 2.0. *)
Inductive PyOrder := OInt (z : Z) | OFloat (z : Z).
Definition order_val (o : PyOrder) : Z := match o with OInt z => z | OFloat z => z end.
Definition order_eqb (a b : PyOrder) : bool := Z.eqb (order_val a) (order_val b).

Section Layer.
(** hash of a pair, as a function of the hashes of its two elements; hash of an integer or a
    float; hash of other objects *)
Variable hpair : Z -> Z -> Z.
Variable hnum : Z -> Z.
Variable objHash : nat -> Z.
(** module(dim) (_referenceelements.py:16-25): whether it can be imported or generated *)
Variable load : nat -> bool.
Variable lapack : Z -> nat -> option (list (R * R)).

(** referenceelements.hh:243-245 rule(gt, order): pybind11 takes only integers in the range
    of int; GaussLegendre is the default of QuadratureRules::rule
    (quadraturerules.hh:324-327).  An order out of range indexes a vector out of bounds. *)
Definition INT_MIN : Z := (- INT_MAX - 1)%Z.
Definition module_rule (dim : nat) (t : GeometryType) (o : PyOrder) : Call Rule :=
  match o with
  | OFloat _ => Raise TypeError
  | OInt p =>
      if (p <? INT_MIN)%Z || (INT_MAX <? p)%Z then Raise TypeError
      else if negb (Nat.eqb (gt_dim t) dim) then Undef
      else if negb (inRange dim t p qtLegendre) then Undef
      else match factory lapack dim t p qtLegendre with Some r => Ret r | None => Raise DuneException end
  end.
(** the call in __init__.py:25: the rule is returned by value, a new object *)
Definition call_rule (k : Key) (o : PyOrder) : Call Rule :=
  match k with
  | KType t => if load (gt_dim t) then module_rule (gt_dim t) t o else Raise ImportError
  | _ => Raise AttributeError
  end.

(** __init__.py:16-29 quadratureRule(geometryType, order).  The state is the dictionary and
    the number of the next object. *)
Definition RKey : Type := Key * PyOrder.
Definition rkey_hash (k : RKey) : Z := hpair (key_hash objHash (fst k)) (hnum (order_val (snd k))).
Definition rkey_eqb (a b : RKey) : bool := key_eqb (fst a) (fst b) && order_eqb (snd a) (snd b).
Record RState := mkRS { rs_dict : list (RKey * (nat * Rule)); rs_next : nat }.
Definition rs_init : RState := mkRS [] 0.
Definition quadratureRule (s : RState) (g : PyObj) (o : PyOrder) : RState * Call (nat * Rule) :=
  let k := (attr_type g, o) in
  match dget rkey_hash rkey_eqb (rs_dict s) k with
  | Some v => (s, Ret v)
  | None =>
      match call_rule (fst k) o with
      | Ret r => let v := (rs_next s, r) in
                 (mkRS (dset rkey_hash rkey_eqb (rs_dict s) k v) (S (rs_next s)), Ret v)
      | Raise e => (s, Raise e)
      | Undef => (s, Undef)
      end
  end.

(** A program: calls one after the other; it may catch every exception, and there is no
    program after undefined behaviour. *)
Inductive runs (s0 : RState) : list (PyObj * PyOrder) -> RState -> Prop :=
| runs_nil : runs s0 [] s0
| runs_call l s g o s' c : runs s0 l s -> quadratureRule s g o = (s', c) -> c <> Undef -> runs s0 (l ++ [(g, o)]) s'.

(** referenceelements.hh:237-242 general(gt), and _referenceelements.py:28-40
    referenceElement(geometryType).  The object that is returned refers to the element in the
    container; None is [None]. *)
Definition call_general (k : Key) : Call (option RefEl) :=
  match k with
  | KType t => if load (gt_dim t)
      then match obind (container (gt_dim t)) (fun c => py_general (gt_dim t) c t) with Some e => Ret e | None => Undef end
      else Raise ImportError
  | _ => Raise AttributeError
  end.
Definition referenceElement (d : list (Key * option RefEl)) (g : PyObj) : list (Key * option RefEl) * Call (option RefEl) :=
  let k := attr_type g in
  match dget (key_hash objHash) key_eqb d k with
  | Some v => (d, Ret v)
  | None =>
      match call_general k with
      | Ret e => (dset (key_hash objHash) key_eqb d k e, Ret e)
      | Raise e => (d, Raise e)
      | Undef => (d, Undef)
      end
  end.
Inductive eruns (d0 : list (Key * option RefEl)) : list PyObj -> list (Key * option RefEl) -> Prop :=
| eruns_nil : eruns d0 [] d0
| eruns_call l d g d' c : eruns d0 l d -> referenceElement d g = (d', c) -> c <> Undef -> eruns d0 (l ++ [g]) d'.

End Layer.

(** ** Rules as numpy arrays *)
Local Open Scope R_scope.
(** The memory of a std::vector<QuadraturePoint<double,d>>, d > 0, in units of a double:
    quadraturerules.hh:122-123, for each point the d coordinates, then the weight. *)
Definition qp_size (d : nat) : nat := d + 1.
Definition memory (d : nat) (pts : list QPoint) : list R :=
  flat_map (fun q => map (fst q) (seq 0 d) ++ [snd q]) pts.
(** A strided array: shape, strides and the address of the first element; reading. *)
Record NdArray := mkNd { nd_shape : list nat; nd_strides : list nat; nd_base : nat }.
Fixpoint nd_offset (strides idx : list nat) : nat :=
  match strides, idx with s :: strides', i :: idx' => (i * s + nd_offset strides' idx')%nat | _, _ => 0%nat end.
Fixpoint nd_inside (shape idx : list nat) : bool :=
  match shape, idx with
  | n :: shape', i :: idx' => Nat.ltb i n && nd_inside shape' idx'
  | [], [] => true
  | _, _ => false
  end.
(** [None]: the index is out of bounds, or the element is outside of the memory *)
Definition nd_get (mem : list R) (a : NdArray) (idx : list nat) : option R :=
  if nd_inside (nd_shape a) idx then nth_error mem (nd_base a + nd_offset (nd_strides a) idx) else None.
(** quadraturerules.hh:26-44 quadratureToNumpy.  rule[0] of an empty rule and position()[0]
    for d = 0 are undefined. *)
Definition quadratureToNumpy (d : nat) (pts : list QPoint) : option (NdArray * NdArray) :=
  match pts, d with
  | [], _ => None
  | _, O => None
  | _, _ => Some (mkNd [d; length pts] [1%nat; qp_size d] 0, mkNd [length pts] [qp_size d] d)
  end.

(** ** Integration.  __init__.py:8-14 _duneIntegrate: f and integrationElement get the array
    of the points, that is they are applied to every column (numpy's element wise evaluation);
    the products are element wise and numpy.sum adds the last axis.  An entity is modelled by
    the integration element of its geometry, if it has an attribute geometry. *)
Definition column (mem : list R) (d : nat) (p : NdArray) (c : nat) : Vec :=
  fun r => match nd_get mem p [r; c] with Some x => x | None => 0 end.
Definition duneIntegrate (d : nat) (pts : list QPoint) (geometry : option (Vec -> R)) (f : Vec -> R) : Call R :=
  match quadratureToNumpy d pts with
  | None => Undef
  | Some (p, w) =>
      match geometry with
      | None => Raise NameError   (* the except clause refers to an undefined name *)
      | Some ie =>
          let mem := memory d pts in
          Ret (fold_left (fun s c => s + f (column mem d p c) * ie (column mem d p c)
                                     * match nd_get mem w [c] with Some x => x | None => 0 end)
                 (seq 0 (length pts)) 0)
      end
  end.

(** ** Tuples of reference elements: dune/python/geometry/referenceelements.hh *)
(** lines 70-77 referenceElementPosition *)
Definition py_position (id : N) (dim : nat) (r : RefElement) (i c : Z) : Py Vec :=
  py_bind (py_size dim r c) (fun size =>
    if (i <? 0)%Z || (Z.of_nat size <=? i)%Z then PyValueError
    else py_of (re_position id dim r (Z.to_nat i) (Z.to_nat c))).
(** lines 170-176 positions(codim) *)
Definition py_positions (id : N) (dim : nat) (r : RefElement) (c : Z) : Py (list Vec) :=
  py_bind (py_size dim r c) (fun size => py_all (fun i => py_of (re_position id dim r (Z.to_nat i) (Z.to_nat c))) size 0).
(** lines 202-208 corners *)
Definition py_corners (id : N) (dim : nat) (r : RefElement) : Py (list Vec) :=
  py_all (fun i => py_of (re_position id dim r (Z.to_nat i) dim)) (re_size r dim) 0.
(** lines 221-225 integrationOuterNormal(i), for dimension > 0 only *)
Definition py_normal (id : N) (dim : nat) (r : RefElement) (i : Z) : Py Vec :=
  if (i <? 0)%Z || (Z.of_nat (re_size r 1) <=? i)%Z then PyValueError
  else py_of (nth_error (referenceIntegrationOuterNormals id dim) (Z.to_nat i)).
(** lines 226-232 integrationOuterNormals *)
Definition py_normals (id : N) (dim : nat) (r : RefElement) : Py (list Vec) :=
  py_all (fun i => py_of (nth_error (referenceIntegrationOuterNormals id dim) (Z.to_nat i))) (re_size r 1) 0.
