(** Abstract face lattice of the polytopes obtained from a point by prism and pyramid
    constructions.  Independent of the code: a face of a prism is a side (a prism over a
    face of the base), a bottom or a top face; a face of a pyramid is a base face, a cone
    over a base face or the apex. *)
From Coq Require Import NArith PeanoNat List.
Import ListNotations.

Inductive Topo := Pt | Pri (b : Topo) | Pyr (b : Topo).

Inductive Face := FPt | FSide (f : Face) | FBot (f : Face) | FTop (f : Face)
                | FBase (f : Face) | FCone (f : Face) | FApex.

Fixpoint tdim (T : Topo) : nat :=
  match T with Pt => 0 | Pri b => S (tdim b) | Pyr b => S (tdim b) end.

Fixpoint is_face (T : Topo) (f : Face) : Prop :=
  match T, f with
  | Pt, FPt => True
  | Pri b, FSide f | Pri b, FBot f | Pri b, FTop f => is_face b f
  | Pyr b, FBase f | Pyr b, FCone f => is_face b f
  | Pyr b, FApex => True
  | _, _ => False
  end.

(** codimension of a face *)
Fixpoint fcod (T : Topo) (f : Face) : nat :=
  match T, f with
  | Pri b, FSide f => fcod b f
  | Pri b, FBot f | Pri b, FTop f => S (fcod b f)
  | Pyr b, FBase f => S (fcod b f)
  | Pyr b, FCone f => fcod b f
  | Pyr b, FApex => S (tdim b)
  | _, _ => 0
  end.

(** topology of a face *)
Fixpoint ftype (T : Topo) (f : Face) : Topo :=
  match T, f with
  | Pri b, FSide f => Pri (ftype b f)
  | Pri b, FBot f | Pri b, FTop f => ftype b f
  | Pyr b, FBase f => ftype b f
  | Pyr b, FCone f => Pyr (ftype b f)
  | _, _ => Pt
  end.

(** a face [g] of the face [f], seen as a face of the whole *)
Fixpoint emb (f g : Face) : Face :=
  match f, g with
  | FSide f, FSide g => FSide (emb f g)
  | FSide f, FBot g => FBot (emb f g)
  | FSide f, FTop g => FTop (emb f g)
  | FBot f, g => FBot (emb f g)
  | FTop f, g => FTop (emb f g)
  | FBase f, g => FBase (emb f g)
  | FCone f, FBase g => FBase (emb f g)
  | FCone f, FCone g => FCone (emb f g)
  | FCone f, FApex => FApex
  | FApex, _ => FApex
  | _, _ => FPt
  end.

(** the faces of codimension [c] in the order of the numbering documented for DUNE:
    prism: sides, bottom faces, top faces; pyramid: base faces, cones, apex *)
Fixpoint faces (T : Topo) (c : nat) : list Face :=
  match T with
  | Pt => match c with 0 => [FPt] | _ => [] end
  | Pri b => map FSide (faces b c)
             ++ match c with
                | 0 => []
                | S c' => map FBot (faces b c') ++ map FTop (faces b c')
                end
  | Pyr b => match c with 0 => [] | S c' => map FBase (faces b c') end
             ++ map FCone (faces b c)
             ++ (if c =? S (tdim b) then [FApex] else [])
  end.

(** the topology denoted by a topology id: bit k says how dimension k+1 was built *)
Fixpoint topo_of (id : N) (dim : nat) : Topo :=
  match dim with
  | 0 => Pt
  | S d => if N.testbit id (N.of_nat d) then Pri (topo_of id d) else Pyr (topo_of id d)
  end.
