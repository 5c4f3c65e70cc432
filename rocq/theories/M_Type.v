(** Model of dune/geometry/type.hh.

    Simplifications common to this file: [unsigned int] values are unbounded [N]
    (the C++ code is only defined for dimensions < 31, where the shifts below do not
    overflow); [unsigned char dim_] is a [nat] and the narrowing conversion of the
    constructors is modelled by [mod 256]. *)
From Coq Require Import NArith PeanoNat Bool List.
Import ListNotations.
Local Open Scope N_scope.

(** [1u << n] (used all over type.hh, e.g. lines 43, 61, 79, 93). Unbounded. *)
Definition bit (n : nat) : N := N.shiftl 1 (N.of_nat n).

(** type.hh:41-44 [numTopologies]. *)
Definition numTopologies (dim : nat) : N := bit dim.

(** type.hh:57-62 [isPyramid(topologyId,dim,codim)].  The asserts are preconditions
    of the theorems; [x & ~1] is [N.ldiff x 1]. *)
Definition isPyramid (topologyId : N) (dim codim : nat) : bool :=
  N.land (N.ldiff topologyId 1) (bit (dim - codim - 1)) =? 0.

(** type.hh:75-80 [isPrism(topologyId,dim,codim)]. *)
Definition isPrism (topologyId : N) (dim codim : nat) : bool :=
  negb (N.land (N.lor topologyId 1) (bit (dim - codim - 1)) =? 0).

(** type.hh:89-94 [baseTopologyId(topologyId,dim,codim)]. *)
Definition baseTopologyId (topologyId : N) (dim codim : nat) : N :=
  N.land topologyId (bit (dim - codim) - 1).

(** type.hh:113-138 class GeometryType: the three data members. *)
Record GeometryType := mkGT { gt_dim : nat; gt_none : bool; gt_id : N }.

(** Narrowing [unsigned int] -> [unsigned char] in the constructors' [dim_(dim)]. *)
Definition to_uchar (n : nat) : nat := Nat.modulo n 256.

(** type.hh:242-244 three argument constructor. *)
Definition GT3 (topologyId : N) (dim : nat) (isNone : bool) : GeometryType :=
  mkGT (to_uchar dim) isNone topologyId.

(** type.hh:251-253 two argument constructor. *)
Definition GT2 (topologyId : N) (dim : nat) : GeometryType :=
  mkGT (to_uchar dim) false topologyId.

(** type.hh:232-234 default constructor. *)
Definition GT0 : GeometryType := mkGT 0 true 0.

(** type.hh:190-196 [operator Id], and 210-213 [toId]. The result is a uint64. *)
Definition toId (t : GeometryType) : N :=
  N.lor (N.lor (N.of_nat (gt_dim t)) (N.shiftl (N.b2n (gt_none t)) 8))
        (N.land (N.shiftl (gt_id t) 32) (N.ones 64)).

(** type.hh:222-226 constructor from Id.  [topologyId_] is a 32 bit unsigned. *)
Definition ofId (id : N) : GeometryType :=
  mkGT (N.to_nat (N.land id 255))
       (negb (N.land id 256 =? 0))
       (N.land (N.shiftr id 32) (N.ones 32)).

(** type.hh:279-286 *)
Definition isVertex (t : GeometryType) : bool := Nat.eqb (gt_dim t) 0.
Definition isLine (t : GeometryType) : bool := Nat.eqb (gt_dim t) 1.

(** type.hh:289-316: the named predicates. *)
Definition named (d : nat) (pat : N) (t : GeometryType) : bool :=
  negb (gt_none t) && Nat.eqb (gt_dim t) d && (N.lor (gt_id t) 1 =? pat).
Definition isTriangle := named 2 1.
Definition isQuadrilateral := named 2 3.
Definition isTetrahedron := named 3 1.
Definition isPyramidT := named 3 3.
Definition isPrismT := named 3 5.
Definition isHexahedron := named 3 7.

(** type.hh:319-321 *)
Definition isSimplex (t : GeometryType) : bool :=
  negb (gt_none t) && (N.lor (gt_id t) 1 =? 1).

(** type.hh:324-326 *)
Definition isCube (t : GeometryType) : bool :=
  negb (gt_none t)
  && (N.shiftr (N.lxor (gt_id t) (bit (gt_dim t) - 1)) 1 =? 0).

(** type.hh:337-339 [isConical(step)], 350-352 [isPrismatic(step)]. *)
Definition isConicalStep (t : GeometryType) (step : nat) : bool :=
  negb (gt_none t) && (N.land (N.ldiff (gt_id t) 1) (bit step) =? 0).
Definition isPrismaticStep (t : GeometryType) (step : nat) : bool :=
  negb (gt_none t) && negb (N.land (N.lor (gt_id t) 1) (bit step) =? 0).

(** type.hh:329-331 [isConical()], 342-344 [isPrismatic()].  For dim_ = 0 the code
    shifts by -1: undefined behaviour, modelled by [None] (not reached for none types
    because of the short circuit). *)
Definition isConical (t : GeometryType) : option bool :=
  if gt_none t then Some false
  else match gt_dim t with O => None | S d => Some (isConicalStep t d) end.
Definition isPrismatic (t : GeometryType) : option bool :=
  if gt_none t then Some false
  else match gt_dim t with O => None | S d => Some (isPrismaticStep t d) end.

(** type.hh:377-385 [operator==], 388-390 [operator!=]. *)
Definition gt_eqb (a b : GeometryType) : bool :=
  Bool.eqb (gt_none a) (gt_none b)
  && (gt_none a
      || (Nat.eqb (gt_dim a) (gt_dim b)
          && (N.shiftr (gt_id a) 1 =? N.shiftr (gt_id b) 1))).
Definition gt_neqb (a b : GeometryType) : bool := negb (gt_eqb a b).

(** type.hh:393-403 [operator<]; [<] on bool is false < true. *)
Definition bool_ltb (a b : bool) : bool := negb a && b.
Definition gt_ltb (a b : GeometryType) : bool :=
  bool_ltb (gt_none a) (gt_none b)
  || (negb (bool_ltb (gt_none b) (gt_none a))
      && (Nat.ltb (gt_dim a) (gt_dim b)
          || (Nat.eqb (gt_dim b) (gt_dim a)
              && (N.shiftr (gt_id a) 1 <? N.shiftr (gt_id b) 1)))).

(** type.hh:410-439: which label [operator<<] prints (text itself not modelled). *)
Inductive Label := LSimplex (d : nat) | LCube (d : nat) | LPyramid | LPrism
                 | LNone (d : nat) | LOther (id : N) (d : nat).
Definition label (a : GeometryType) : Label :=
  if isSimplex a then LSimplex (gt_dim a)
  else if isCube a then LCube (gt_dim a)
  else if isPyramidT a then LPyramid
  else if isPrismT a then LPrism
  else if gt_none a then LNone (gt_dim a)
  else LOther (gt_id a) (gt_dim a).

(** type.hh:453-474 GeometryTypes::simplex, cube, none. *)
Definition simplex (dim : nat) : GeometryType := GT3 0 dim false.
Definition cube (dim : nat) : GeometryType :=
  GT3 (if Nat.ltb 1 dim then bit dim - 1 else 0) dim false.
Definition none (dim : nat) : GeometryType := GT3 0 dim true.

(** type.hh:477-486 conicalExtension, prismaticExtension. *)
Definition conicalExtension (t : GeometryType) : GeometryType :=
  GT3 (gt_id t) (gt_dim t + 1) (gt_none t).
Definition prismaticExtension (t : GeometryType) : GeometryType :=
  GT3 (N.lor (gt_id t) (bit (gt_dim t))) (gt_dim t + 1) (gt_none t).

(** type.hh:492-534 constants. *)
Definition vertex := GT3 0 0 false.
Definition line := GT3 0 1 false.
Definition triangle := simplex 2.
Definition quadrilateral := cube 2.
Definition tetrahedron := simplex 3.
Definition pyramid := GT3 3 3 false.
Definition prism := GT3 5 3 false.
Definition hexahedron := cube 3.

(** type.hh:542-544 Impl::getBase (precondition dim >= 1). *)
Definition getBase (t : GeometryType) : GeometryType :=
  GT3 (N.land (gt_id t) (bit (gt_dim t - 1) - 1)) (gt_dim t - 1) (gt_none t).

(** type.hh:550-574 Impl::IfGeometryType<Operation,dim,geometryId>::apply: the
    geometry type whose Operation<...>::apply is run (the template argument
    [geometryId] at the bottom of the recursion). *)
Fixpoint IfGeometryType (dim : nat) (geometry : GeometryType) (gt : GeometryType)
  : GeometryType :=
  match dim with
  | O => geometry
  | S d =>
      let lower := GT3 (N.shiftr (gt_id gt) 1) (gt_dim gt - 1) (gt_none gt) in
      if N.land (gt_id gt) 1 =? 0
      then IfGeometryType d (ofId (toId (conicalExtension geometry))) lower
      else IfGeometryType d (ofId (toId (prismaticExtension geometry))) lower
  end.
