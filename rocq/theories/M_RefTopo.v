(** Model of the topological part of the reference elements:
    dune/geometry/referenceelementimplementation.cc and the class
    ReferenceElementImplementation::SubEntityInfo of referenceelementimplementation.hh.

    [unsigned int] counts are unbounded [nat] (simplification: no overflow; the counts
    are bounded by C(dim,c)*2^c, see [size_le_maxSubEntityCount]). *)
From Coq Require Import NArith PeanoNat Bool List.
From Verif Require Import M_Type.
Import ListNotations.

(** referenceelementimplementation.cc:20-44 [size].  The branch [dim = 0 < codim] is
    excluded by the assert in line 23; it returns 0 here and theorems assume codim <= dim. *)
Fixpoint size (topologyId : N) (dim codim : nat) {struct dim} : nat :=
  match codim with
  | 0 => 1
  | S codim1 =>
    match dim with
    | 0 => 0
    | S dim1 =>
      let baseId := baseTopologyId topologyId dim 1 in
      let m := size baseId dim1 codim1 in
      if isPrism topologyId dim 0 then
        let n := if codim <? dim then size baseId dim1 codim else 0 in
        n + 2 * m
      else
        let n := if codim <? dim then size baseId dim1 codim else 1 in
        m + n
    end
  end.

(** referenceelementimplementation.cc:51-82 [subTopologyId].
    [prismConstruction] = 1 and [pyramidConstruction] = 0 (type.hh:28). *)
Fixpoint subTopologyId (topologyId : N) (dim codim i : nat) {struct dim} : N :=
  let mydim := dim - codim in
  match codim with
  | 0 => topologyId
  | S codim1 =>
    match dim with
    | 0 => 0%N
    | S dim1 =>
      let baseId := baseTopologyId topologyId dim 1 in
      let m := size baseId dim1 codim1 in
      if isPrism topologyId dim 0 then
        let n := if codim <? dim then size baseId dim1 codim else 0 in
        if i <? n then N.lor (subTopologyId baseId dim1 codim i) (N.shiftl 1 (N.of_nat (mydim - 1)))
        else subTopologyId baseId dim1 codim1 (if i <? n + m then i - n else i - (n + m))
      else
        if i <? m then subTopologyId baseId dim1 codim1 i
        else if codim <? dim then
          N.lor (subTopologyId baseId dim1 codim (i - m)) (N.shiftl 0 (N.of_nat (mydim - 1)))
        else 0%N
    end
  end.

(** The [unsigned int] array handed to subTopologyNumbering: [None] is a slot that has
    not been written since its allocation. *)
Definition Mem := list (option nat).

(** Reading a slot: fails (undefined behaviour) outside of the array and on
    uninitialised slots. *)
Definition rd (mem : Mem) (a : nat) : option nat :=
  match nth_error mem a with Some (Some v) => Some v | _ => None end.

(** Writing a slot: fails (undefined behaviour) outside of the array. *)
Fixpoint wr (mem : Mem) (a v : nat) : option Mem :=
  match mem, a with
  | [], _ => None
  | _ :: r, 0 => Some (Some v :: r)
  | x :: r, S a' => match wr r a' v with Some r' => Some (x :: r') | None => None end
  end.

Definition obind {A B} (o : option A) (f : A -> option B) : option B :=
  match o with Some a => f a | None => None end.

(** A [for] loop over [j = from, from+1, ..] of [count] iterations. *)
Fixpoint loop (count from : nat) (body : nat -> Mem -> option Mem) (mem : Mem) : option Mem :=
  match count with
  | 0 => Some mem
  | S k => obind (body from mem) (loop k (S from) body)
  end.

(** [for (p = b; p != e; ++p) body]: runs away if [e < b] (modelled as failure). *)
Definition range_loop (b e : nat) (body : nat -> Mem -> option Mem) (mem : Mem) : option Mem :=
  if e <? b then None else loop (e - b) b body mem.

(** [*a += v]. *)
Definition add_at (a v : nat) (mem : Mem) : option Mem :=
  obind (rd mem a) (fun x => wr mem a (x + v)).

(** referenceelementimplementation.cc:89-168 [subTopologyNumbering]; the pointers
    beginOut, endOut are positions in the array. *)
Fixpoint subTopologyNumbering (topologyId : N) (dim codim i subcodim : nat)
         (beginOut endOut : nat) (mem : Mem) {struct dim} : option Mem :=
  match codim with
  | 0 => range_loop beginOut endOut (fun p mem => wr mem p (p - beginOut)) mem
  | S codim1 =>
    match subcodim with
    | 0 => wr mem beginOut i
    | S subcodim1 =>
      match dim with
      | 0 => None
      | S dim1 =>
        let baseId := baseTopologyId topologyId dim 1 in
        let m := size baseId dim1 codim1 in
        let mb := size baseId dim1 (codim + subcodim - 1) in
        let nb := if codim + subcodim <? dim then size baseId dim1 (codim + subcodim) else 0 in
        if isPrism topologyId dim 0 then
          let n := size baseId dim1 codim in
          if i <? n then
            let subId := subTopologyId baseId dim1 codim i in
            obind
              (if codim + subcodim <? dim then
                 let beginBase := beginOut + size subId (dim - codim - 1) subcodim in
                 obind (subTopologyNumbering baseId dim1 codim i subcodim beginOut beginBase mem)
                       (fun mem => Some (beginBase, mem))
               else Some (beginOut, mem))
              (fun '(beginBase, mem) =>
                 let ms := size subId (dim - codim - 1) (subcodim - 1) in
                 obind (subTopologyNumbering baseId dim1 codim i subcodim1 beginBase (beginBase + ms) mem)
                       (loop ms 0 (fun j mem =>
                          obind (add_at (beginBase + j) nb mem) (fun mem =>
                          obind (rd mem (beginBase + j)) (fun x =>
                          wr mem (beginBase + j + ms) (x + mb))))))
          else
            let s := if i <? n + m then 0 else 1 in
            obind (subTopologyNumbering baseId dim1 codim1 (i - (n + s * m)) subcodim beginOut endOut mem)
                  (range_loop beginOut endOut (fun p => add_at p (nb + s * mb)))
        else
          if i <? m then
            subTopologyNumbering baseId dim1 codim1 i subcodim beginOut endOut mem
          else
            let subId := subTopologyId baseId dim1 codim (i - m) in
            let ms := size subId (dim - codim - 1) (subcodim - 1) in
            obind (subTopologyNumbering baseId dim1 codim (i - m) subcodim1 beginOut (beginOut + ms) mem)
              (fun mem =>
                 if codim + subcodim <? dim then
                   obind (subTopologyNumbering baseId dim1 codim (i - m) subcodim (beginOut + ms) endOut mem)
                         (range_loop (beginOut + ms) endOut (fun p => add_at p mb))
                 else wr mem (beginOut + ms) mb)
      end
    end
  end.

(** [binomial] of dune-common (dune/common/math.hh, not in /repo). *)
Fixpoint binomial (n k : nat) : nat :=
  match k, n with
  | 0, _ => 1
  | S _, 0 => 0
  | S k', S n' => binomial n' k' + binomial n' k
  end.

(** referenceelementimplementation.hh:643-649 [maxSubEntityCount]. *)
Definition maxSubEntityCount (dim : nat) : nat :=
  fold_left (fun maxCount codim => Nat.max maxCount (binomial dim codim * Nat.pow 2 codim))
            (seq 0 (S dim)) 0.

(** std::bitset<maxSubEntityCount()>, referenceelementimplementation.hh:651; setting a
    bit outside of the bitset is undefined behaviour ([None]). *)
Definition SubEntityFlags := list bool.
Fixpoint set_flag (f : SubEntityFlags) (k : nat) : option SubEntityFlags :=
  match f, k with
  | [], _ => None
  | _ :: r, 0 => Some (true :: r)
  | x :: r, S k' => match set_flag r k' with Some r' => Some (x :: r') | None => None end
  end.

(** referenceelementimplementation.hh:776-780: data members of SubEntityInfo. *)
Record SubEntityInfo := mkInfo {
  offset_ : list nat;
  type_ : GeometryType;
  numbering_ : Mem;
  containsSubentity_ : list SubEntityFlags }.

(** referenceelementimplementation.hh:724-728 SubEntityInfo::size. *)
Definition info_size (s : SubEntityInfo) (cc : nat) : nat :=
  nth (cc + 1) (offset_ s) 0 - nth cc (offset_ s) 0.

(** referenceelementimplementation.hh:730-734 SubEntityInfo::number. *)
Definition info_number (s : SubEntityInfo) (ii cc : nat) : option nat :=
  rd (numbering_ s) (nth cc (offset_ s) 0 + ii).

(** All-or-nothing map. *)
Fixpoint omap {A B} (f : A -> option B) (l : list A) : option (list B) :=
  match l with
  | [] => Some []
  | a :: r => obind (f a) (fun b => obind (omap f r) (fun bs => Some (b :: bs)))
  end.

(** referenceelementimplementation.hh:736-739 SubEntityInfo::numbers, the iterated
    range (the pointer range numbering_+offset_[cc] .. numbering_+offset_[cc+1]). *)
Definition info_numbers (s : SubEntityInfo) (cc : nat) : option (list nat) :=
  let b := nth cc (offset_ s) 0 in
  let e := nth (cc + 1) (offset_ s) 0 in
  omap (rd (numbering_ s)) (seq b (e - b)).

(** referenceelementimplementation.hh:680-683 SubEntityRange::contains; an index outside
    of the bitset is undefined ([None]). *)
Definition info_contains (s : SubEntityInfo) (cc k : nat) : option bool :=
  nth_error (nth cc (containsSubentity_ s) []) k.

(** offset_[cc+1] = offset_[cc] + size: running sums. *)
Fixpoint running (acc : nat) (l : list nat) : list nat :=
  match l with
  | [] => []
  | x :: r => (acc + x) :: running (acc + x) r
  end.

(** referenceelementimplementation.hh:748-752: the offsets. *)
Definition offsets (subId : N) (dim codim : nat) : list nat :=
  repeat 0 (codim + 1)
  ++ running 0 (map (fun cc => size subId (dim - codim) (cc - codim))
                    (seq codim (S dim - codim))).

(** referenceelementimplementation.hh:757-758: the loop filling numbering_. *)
Fixpoint fill_numbering (topologyId : N) (dim codim i : nat) (off : list nat)
         (ccs : list nat) (mem : Mem) : option Mem :=
  match ccs with
  | [] => Some mem
  | cc :: rest =>
      obind (subTopologyNumbering topologyId dim codim i (cc - codim)
                                  (nth cc off 0) (nth (cc + 1) off 0) mem)
            (fill_numbering topologyId dim codim i off rest)
  end.

(** referenceelementimplementation.hh:764-765: flags of one codimension. *)
Fixpoint fill_flags (f : SubEntityFlags) (nums : list nat) : option SubEntityFlags :=
  match nums with
  | [] => Some f
  | k :: rest => obind (set_flag f k) (fun f => fill_flags f rest)
  end.

(** referenceelementimplementation.hh:743-767 SubEntityInfo::initialize.  [None]: some
    access was out of bounds or read an uninitialised slot. *)
Definition info_initialize (topologyId : N) (dim codim i : nat) : option SubEntityInfo :=
  let subId := subTopologyId topologyId dim codim i in
  let t := GT2 subId (dim - codim) in
  let off := offsets subId dim codim in
  let capacity := nth (dim + 1) off 0 in
  let mem := repeat None capacity in
  obind (fill_numbering topologyId dim codim i off (seq codim (S dim - codim)) mem)
    (fun mem =>
       let s := mkInfo off t mem [] in
       obind (omap (fun cc => obind (info_numbers s cc)
                        (fill_flags (repeat false (maxSubEntityCount dim))))
                   (seq 0 (S dim)))
             (fun fl => Some (mkInfo off t mem fl))).

(** referenceelementimplementation.hh:571-582: the topological part of
    ReferenceElementImplementation::initialize, i.e. the member info_[codim][i]. *)
Definition re_infos (topologyId : N) (dim : nat) : option (list (list SubEntityInfo)) :=
  omap (fun codim => omap (info_initialize topologyId dim codim)
                          (seq 0 (size topologyId dim codim)))
       (seq 0 (S dim)).

(** The user visible (topological) state of a reference element. *)
Definition RefElement := list (list SubEntityInfo).

(** referenceelementimplementation.hh:426-430 size(c). *)
Definition re_size (r : RefElement) (c : nat) : nat := length (nth c r []).

Definition re_info (r : RefElement) (i c : nat) : option SubEntityInfo :=
  nth_error (nth c r []) i.

(** referenceelementimplementation.hh:443-447 size(i,c,cc). *)
Definition re_size3 (r : RefElement) (i c cc : nat) : option nat :=
  obind (re_info r i c) (fun s => Some (info_size s cc)).

(** referenceelementimplementation.hh:462-466 subEntity(i,c,ii,cc). *)
Definition re_subEntity (r : RefElement) (i c ii cc : nat) : option nat :=
  obind (re_info r i c) (fun s => info_number s ii cc).

(** referenceelementimplementation.hh:483-487 subEntities(i,c,cc), as a list. *)
Definition re_subEntities (r : RefElement) (i c cc : nat) : option (list nat) :=
  obind (re_info r i c) (fun s => info_numbers s cc).

(** referenceelementimplementation.hh:483-487 and 680-683:
    subEntities(i,c,cc).contains(k). *)
Definition re_contains (r : RefElement) (i c cc k : nat) : option bool :=
  obind (re_info r i c) (fun s => info_contains s cc k).

(** referenceelementimplementation.hh:497-501 type(i,c). *)
Definition re_type (r : RefElement) (i c : nat) : option GeometryType :=
  obind (re_info r i c) (fun s => Some (type_ s)).
