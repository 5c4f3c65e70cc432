(** Model of dune/geometry/topologyfactory.hh: TopologyFactory and the caching wrapper
    TopologySingletonFactory.

    Objects are represented by their addresses (natural numbers; a new object gets an
    address never used before, which is what [operator new] guarantees as long as nothing
    is deleted; the wrapper deletes only in its destructor).  What the user supplied
    factory returns is arbitrary: an oracle indexed by the number of the call. *)
From Coq Require Import NArith PeanoNat Bool List.
From Verif Require Import M_Type M_TypeIndex.
Import ListNotations.

Section Singleton.

(** [Traits::dimension], [Traits::Key]; [keq] is the equivalence that the ordering of the
    [std::map] induces on keys (topologyfactory.hh:127). *)
Context (dimension : nat) {Key : Type} (keq : Key -> Key -> bool).

(** The topology with which the user's factory is instantiated: an id for
    createObject<geometryId> (lines 57-61), a type with an id for createObject<Topology>
    (lines 64-68). *)
Inductive Instance := IGeometry (geometryId : N) | ITopology (topologyId : N).

(** The three overloads of TopologySingletonFactory::create (lines 88-107). *)
Inductive Call :=
| Dynamic (gt : GeometryType) (key : Key)
| StaticGeometry (geometryId : N) (key : Key)
| StaticTopology (topologyId : N) (key : Key).

(** Lines 138, 148, 157: the array index the three getObject versions use. *)
Definition call_id (c : Call) : N :=
  match c with
  | Dynamic gt _ => gt_id gt
  | StaticGeometry geometryId _ => gt_id (ofId geometryId)
  | StaticTopology topologyId _ => topologyId
  end.
Definition call_key (c : Call) : Key :=
  match c with Dynamic _ k | StaticGeometry _ k | StaticTopology _ k => k end.

(** Lines 50-55, 58-61, 65-68: what the call would instantiate the user's factory with
    (lines 140, 150, 159). *)
Definition call_instance (c : Call) : Instance :=
  match c with
  | Dynamic gt _ => IGeometry (toGeometryTypeIdConstant dimension gt)
  | StaticGeometry geometryId _ => IGeometry geometryId
  | StaticTopology topologyId _ => ITopology topologyId
  end.

(** What the user's createObject does. *)
Inductive Made := MObject | MNull | MThrow.

(** [storage_] (line 163): the non-null pointers, by topology id and key; [next]: the next
    fresh address; [calls]: every call of the user's factory, latest first. *)
Record St := mkSt {
  store : list ((N * Key) * nat);
  next : nat;
  calls : list (N * Key * Instance)
}.
Definition st0 : St := mkSt [] 0 [].

(** Lines 131-134 [find]: [storage_[key][topologyId]]; the [std::map] inserts an array of
    null pointers for a new key, so an absent entry is a null pointer. *)
Fixpoint find (s : list ((N * Key) * nat)) (id : N) (key : Key) : option nat :=
  match s with
  | [] => None
  | ((i, k), p) :: rest => if N.eqb i id && keq k key then Some p else find rest id key
  end.

(** Result of a call: a pointer, a null pointer or the exception of the user's factory. *)
Inductive Res := RPtr (p : nat) | RNull | RThrow.

(** Lines 136-161: getObject, all three versions. *)
Definition getObject (made : Made) (c : Call) (s : St) : Res * St :=
  match find (store s) (call_id c) (call_key c) with
  | Some p => (RPtr p, s)
  | None =>
      let log := (call_id c, call_key c, call_instance c) :: calls s in
      match made with
      | MObject => (RPtr (next s),
                    mkSt ((call_id c, call_key c, next s) :: store s) (S (next s)) log)
      | MNull => (RNull, mkSt (store s) (next s) log)
      | MThrow => (RThrow, mkSt (store s) (next s) log)
      end
  end.

(** Lines 88-107: create.  The assertion of line 90 and, for the static overloads, an array
    index out of bounds (line 133, undefined behaviour) are [None]. *)
Definition create (made : Made) (c : Call) (s : St) : option (Res * St) :=
  if N.ltb (call_id c) (bit dimension) then Some (getObject made c s) else None.

(** A sequence of calls; [oracle i] is what the user's factory does if it is called by the
    i-th request. *)
Fixpoint run (oracle : nat -> Made) (n : nat) (cs : list Call) (s : St)
  : option (list Res * St) :=
  match cs with
  | [] => Some ([], s)
  | c :: rest =>
      match create (oracle n) c s with
      | None => None
      | Some (r, s1) =>
          match run oracle (S n) rest s1 with
          | None => None
          | Some (rs, s2) => Some (r :: rs, s2)
          end
      end
  end.

End Singleton.
