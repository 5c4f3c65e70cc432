(** The integer arithmetic of dune/geometry/refinement/ and of the entity counts with 32 bits.

    M_Refine.v and M_RefTopo.v compute with unbounded numbers.  Here [unsigned int] is a number
    below 2^32 and wraps around, and a result of type [int] above INT_MAX is undefined behaviour
    ([None]).  All int values that occur are nonnegative, so they are written as [nat].
    The conversion of [unsigned] to [int] is modular (guaranteed since C++20).

    [Dune::binomial] and [Dune::power] belong to dune-common, which is not in /repo.  The
    simplex model is parametrised with them; [binomialI] and [powerI] are the implementations of
    dune-common/dune/common/math.hh as known to us (product of k factors divided by k!, and
    repeated multiplication). *)
From Coq Require Import PeanoNat NArith ZArith Bool List Factorial.
From Verif Require Import M_Type M_RefTopo M_RefGeo M_QuadFactory M_Refine.
Import ListNotations.

(** ** int *)
Definition ck (n : nat) : option nat := if (Z.of_nat n <=? INT_MAX)%Z then Some n else None.
Fixpoint foldO {A S} (f : S -> A -> option S) (l : list A) (s : S) : option S :=
  match l with [] => Some s | a :: l => obind (f s a) (foldO f l) end.

(** dune-common math.hh: for(k = 0; k < n; ++k) fac *= k+1; *)
Definition factorialI (n : nat) : option nat := foldO (fun fac k => ck (fac * (k + 1))) (seq 0 n) 1.
(** if(k > n) return 0; if(2*k > n) return binomial(n,n-k); bin = 1; for(i = n-k; i < n; ++i) bin *= i+1;
    return bin / factorial(k); *)
Definition binomialI (n k : nat) : option nat :=
  if n <? k then Some 0 else
  obind (ck (2 * k)) (fun kk =>
  let k := if n <? kk then n - k else k in
  obind (foldO (fun bin i => ck (bin * (i + 1))) (seq (n - k) k) 1) (fun bin =>
  obind (factorialI k) (fun fac => Some (bin / fac)))).
(** for(i = 0; i < p; ++i) result *= m; *)
Definition powerI (m p : nat) : option nat := foldO (fun r _ => ck (r * m)) (seq 0 p) 1.

(** *** refinement/simplex.cc *)
(** lines 292-310 *)
Definition getPermutationI (n m : nat) : option (nat -> nat) :=
  obind (foldO (fun base i => ck (base * i)) (seq 1 n) 1) (fun base => permLoop n m base (fun i => i)).

(** the loops of lines 490-496 and 601-607 *)
Fixpoint incLoopI (i : nat) (v : nat -> nat) : option (nat -> nat) :=
  match i with
  | O => Some v
  | S i =>
      obind (ck (v i + 1)) (fun vi =>
      let v := aset v i vi in
      if Nat.eqb i 0 || (v i <=? v (i - 1)) then Some v else incLoopI i (aset v i 0))
  end.

Section Simplex.
Variables (binomial power : nat -> nat -> option nat).

(** lines 279-286 *)
Definition pointIndexI (dim : nat) (point : nat -> nat) : option nat :=
  foldO (fun index i => obind (ck (dim - i + point i)) (fun a =>
                        obind (binomial (a - 1) (dim - i)) (fun b => ck (index + b)))) (seq 0 dim) 0.
(** lines 394-397 and 418-421 *)
Definition sx_nVerticesI (dim nIntervals : nat) : option nat := obind (ck (dim + nIntervals)) (fun a => binomial a dim).
Definition sx_nElementsI (dim nIntervals : nat) : option nat := power nIntervals dim.

(** vertices: lines 475-482, 487-497, 532-535 *)
Definition sv_makeI (nIntervals : nat) (end_ : bool) : option SVert :=
  if end_ then obind (ck (nIntervals + 1)) (fun _ => Some (sv_make nIntervals true)) else Some (sv_make nIntervals false).
Definition sv_incrementI (dim : nat) (s : SVert) : option SVert :=
  if sv_vertex s 0 <=? sv_size s
  then obind (incLoopI dim (sv_vertex s)) (fun v => Some {| sv_size := sv_size s; sv_vertex := v |}) else None.
Definition sv_indexI (dim : nat) (s : SVert) : option nat := pointIndexI dim (sv_vertex s).

(** elements: lines 575-584 *)
Definition se_makeI (dim nIntervals : nat) (end_ : bool) : option SElem :=
  if end_ then obind (sx_nElementsI dim nIntervals) (fun i =>
     Some {| se_origin := fun i => if Nat.eqb i 0 then nIntervals else 0; se_kuhn := 0; se_size := nIntervals; se_index := i |})
  else Some (se_make dim nIntervals false).
(** lines 609-620 *)
Fixpoint outsideLoopI (perm : nat -> nat) (n i : nat) (corner : nat -> nat) : option bool :=
  match n with
  | O => Some false
  | S n =>
      obind (ck (corner (perm i) + 1)) (fun c =>
      let corner := aset corner (perm i) c in
      if (0 <? perm i) && (corner (perm i - 1) <? corner (perm i)) then Some true
      else outsideLoopI perm n (S i) corner)
  end.
(** lines 595-623; nKuhnIntervals is a constant expression, [None] if it cannot be compiled *)
Definition se_roundI (dim : nat) (origin : nat -> nat) (kuhn : nat) : option ((nat -> nat) * nat * bool) :=
  obind (factorialI dim) (fun nKuhnIntervals =>
  obind (ck (kuhn + 1)) (fun kuhn =>
  obind (if Nat.eqb kuhn nKuhnIntervals then obind (incLoopI dim origin) (fun origin => Some (origin, 0)) else Some (origin, kuhn))
    (fun '(origin, kuhn) =>
  obind (getPermutationI dim kuhn) (fun perm =>
  obind (outsideLoopI perm dim 0 origin) (fun outside => Some (origin, kuhn, negb outside)))))).
Fixpoint se_searchI (fuel dim : nat) (origin : nat -> nat) (kuhn : nat) : Run ((nat -> nat) * nat) :=
  match fuel with
  | O => NoFuel
  | S fuel =>
      match se_roundI dim origin kuhn with
      | None => Undef
      | Some (origin, kuhn, true) => Ret (origin, kuhn)
      | Some (origin, kuhn, false) => se_searchI fuel dim origin kuhn
      end
  end.
(** lines 589-624 *)
Definition se_incrementI (fuel dim : nat) (s : SElem) : Run SElem :=
  if se_origin s 0 <? se_size s then
    match ck (se_index s + 1) with
    | None => Undef
    | Some index =>
        match se_searchI fuel dim (se_origin s) (se_kuhn s) with
        | Ret (o, k) => Ret {| se_origin := o; se_kuhn := k; se_size := se_size s; se_index := index |}
        | Undef => Undef
        | NoFuel => NoFuel
        end
    end
  else Undef.
(** lines 638-655 *)
Fixpoint viLoopI (dim : nat) (perm : nat -> nat) (n i : nat) (vertex : nat -> nat) (indices : nat -> nat) : option (nat -> nat) :=
  match n with
  | O => Some indices
  | S n =>
      obind (ck (vertex (perm i) + 1)) (fun v =>
      let vertex := aset vertex (perm i) v in
      obind (pointIndexI dim vertex) (fun index =>
      viLoopI dim perm n (S i) vertex (aset indices (i + 1) index)))
  end.
Definition se_vertexIndicesI (dim : nat) (s : SElem) : option (nat -> nat) :=
  obind (getPermutationI dim (se_kuhn s)) (fun perm =>
  obind (pointIndexI dim (se_origin s)) (fun index0 =>
  obind (viLoopI dim perm dim 0 (se_origin s) (aset (fun _ => 0) 0 index0)) (fun indices =>
  Some (if Nat.eqb (se_kuhn s mod 2) 1
        then fold_left (fun indices i =>
               let t := indices i in
               let indices := aset indices i (indices (dim - i)) in
               aset indices (dim - i) t) (seq 0 ((dim + 1) / 2)) indices
        else indices)))).

(** *** the triangulations: hcubetriangulation.cc:103-108, 127-132, 229-232, 302-320 (and the same
    functions of prismtriangulation.cc and pyramidtriangulation.cc) *)
Definition tr_nVerticesI (dim : nat) (t : Triang) (n : nat) : option nat :=
  obind (sx_nVerticesI dim n) (fun a => obind (ck (tr_count t)) (fun c => ck (a * c))).
Definition tr_nElementsI (dim : nat) (t : Triang) (n : nat) : option nat :=
  obind (sx_nElementsI dim n) (fun a => obind (ck (tr_count t)) (fun c => ck (a * c))).
(** lines 186-207 *)
Definition tv_makeI (t : Triang) (nIntervals : nat) (end_ : bool) : option TVert :=
  obind (ck (tr_count t)) (fun c =>
  obind (sv_makeI nIntervals false) (fun b =>
  obind (sv_makeI nIntervals true) (fun e =>
  Some {| tv_n := nIntervals; tv_kuhn := if end_ then c else 0; tv_backend := b; tv_backendEnd := e |}))).
Definition tv_incrementI (dim : nat) (s : TVert) : option TVert :=
  obind (sv_incrementI dim (tv_backend s)) (fun b =>
  if sv_equals dim b (tv_backendEnd s)
  then obind (ck (tv_kuhn s + 1)) (fun k =>
       obind (sv_makeI (tv_n s) false) (fun b =>
       Some {| tv_n := tv_n s; tv_kuhn := k; tv_backend := b; tv_backendEnd := tv_backendEnd s |}))
  else Some {| tv_n := tv_n s; tv_kuhn := tv_kuhn s; tv_backend := b; tv_backendEnd := tv_backendEnd s |}).
(** lines 271-299 *)
Definition te_makeI (dim : nat) (t : Triang) (nIntervals : nat) (end_ : bool) : option TElem :=
  obind (ck (tr_count t)) (fun c =>
  obind (se_makeI dim nIntervals false) (fun b =>
  obind (se_makeI dim nIntervals true) (fun e =>
  Some {| te_n := nIntervals; te_kuhn := if end_ then c else 0; te_backend := b; te_backendEnd := e |}))).
Definition te_incrementI (fuel dim : nat) (s : TElem) : Run TElem :=
  match se_incrementI fuel dim (te_backend s) with
  | Ret b =>
      if se_equals b (te_backendEnd s)
      then match obind (ck (te_kuhn s + 1)) (fun k => obind (se_makeI dim (te_n s) false) (fun b => Some (k, b))) with
           | Some (k, b) => Ret {| te_n := te_n s; te_kuhn := k; te_backend := b; te_backendEnd := te_backendEnd s |}
           | None => Undef
           end
      else Ret {| te_n := te_n s; te_kuhn := te_kuhn s; te_backend := b; te_backendEnd := te_backendEnd s |}
  | Undef => Undef
  | NoFuel => NoFuel
  end.
Definition tv_indexI (dim : nat) (s : TVert) : option nat :=
  obind (sx_nVerticesI dim (tv_n s)) (fun a =>
  obind (ck (tv_kuhn s * a)) (fun b =>
  obind (sv_indexI dim (tv_backend s)) (fun c => ck (b + c)))).
Definition te_indexI (dim : nat) (s : TElem) : option nat :=
  obind (sx_nElementsI dim (te_n s)) (fun a =>
  obind (ck (te_kuhn s * a)) (fun b => ck (b + se_index (te_backend s)))).
Definition te_vertexIndicesI (dim : nat) (s : TElem) : option (nat -> option nat) :=
  obind (se_vertexIndicesI dim (te_backend s)) (fun indices =>
  obind (sx_nVerticesI dim (te_n s)) (fun a =>
  obind (ck (te_kuhn s * a)) (fun base => Some (fun i => ck (indices i + base))))).
End Simplex.

(** ** unsigned int *)
Local Open Scope N_scope.
Definition u32 (n : N) : N := n mod 2 ^ 32.
(** unsigned to int *)
Definition toInt (n : N) : Z := if n <? 2 ^ 31 then Z.of_N n else (Z.of_N n - 2 ^ 32)%Z.
(** int to unsigned *)
Definition toUns (z : Z) : N := Z.to_N (z mod 2 ^ 32).

(** *** refinement/hcube.cc *)
(** Dune::power on unsigned int *)
Definition upower (m : N) (p : nat) : N := Nat.iter p (fun r => u32 (r * m)) 1.
Definition hc_nVerticesU (dim : nat) (nIntervals : N) : N := upower (u32 (nIntervals + 1)) dim.  (* 106-111 *)
Definition hc_nElementsU (dim : nat) (nIntervals : N) : N := upower nIntervals dim.              (* 131-138 *)
Record UIter := { ui_index : N; ui_n : N }.
Definition hu_vBegin (n : N) : UIter := {| ui_index := 0; ui_n := n |}.                           (* 115-128 *)
Definition hu_vEnd (dim : nat) (n : N) : UIter := {| ui_index := hc_nVerticesU dim n; ui_n := n |}.
Definition hu_eBegin (n : N) : UIter := {| ui_index := 0; ui_n := n |}.                           (* 142-155 *)
Definition hu_eEnd (dim : nat) (n : N) : UIter := {| ui_index := hc_nElementsU dim n; ui_n := n |}.
Definition ui_increment (s : UIter) : UIter := {| ui_index := u32 (ui_index s + 1); ui_n := ui_n s |}.  (* 373-378 *)
Definition ui_equals (s o : UIter) : bool := (ui_index s =? ui_index o) && (ui_n s =? ui_n o).    (* 364-369 *)
Definition ui_indexI (s : UIter) : Z := toInt (ui_index s).                                       (* 381-386 *)
(** lines 320-330; division by zero is undefined *)
Definition idx2coordU (dim : nat) (idx w : N) : option (nat -> N) :=
  if (w =? 0) && negb (Nat.eqb dim 0) then None else
  Some (snd (fold_left (fun '(idx, c) d => (idx / w, aset c d (idx mod w))) (seq 0 dim) (idx, fun _ => 0))).
Definition ui_vertexCoord (dim : nat) (s : UIter) : option (nat -> N) := idx2coordU dim (ui_index s) (u32 (ui_n s + 1)).
Definition ui_cellCoord (dim : nat) (s : UIter) : option (nat -> N) := idx2coordU dim (ui_index s) (ui_n s).
(** lines 344-351 *)
Definition idx2multiidxU (idx : N) : nat -> N := fun i => N.land (N.shiftr idx (N.of_nat i)) 1.
(** lines 235-256: vec[i] and base have type int, the operands alpha, e and _nIntervals+1 are
    unsigned, so products and sums are computed as unsigned and converted *)
Definition he_vertexIndicesU (dim : nat) (s : UIter) (i : N) : option Z :=
  option_map (fun e =>
    fst (fold_left (fun '(vec, base) d =>
           (toInt (u32 (toUns vec + u32 (u32 (idx2multiidxU i d + e d) * toUns base))),
            toInt (u32 (toUns base * u32 (ui_n s + 1)))))
         (seq 0 dim) (0%Z, 1%Z)))
    (ui_cellCoord dim s).

(** *** number of subentities, referenceelementimplementation.cc:20-44 *)
Fixpoint sizeU (topologyId : N) (dim codim : nat) {struct dim} : N :=
  match codim with
  | O => 1
  | S codim1 =>
      match dim with
      | O => 0
      | S dim1 =>
          let baseId := baseTopologyId topologyId dim 1 in
          let m := sizeU baseId dim1 codim1 in
          if isPrism topologyId dim 0 then
            let n := if Nat.ltb codim dim then sizeU baseId dim1 codim else 0 in
            u32 (n + u32 (2 * m))
          else
            let n := if Nat.ltb codim dim then sizeU baseId dim1 codim else 1 in
            u32 (m + n)
      end
  end.

(** *** refinement/base.cc:117-120 refinementLevels: 1 << levels with int; shifting by a negative
    number or by 32 and more is undefined, 1 << 31 is the conversion of 2^31 to int *)
Definition refinementLevelsI (levels : Z) : option Z :=
  if (0 <=? levels)%Z && (levels <=? 31)%Z then Some (toInt (u32 (N.shiftl 1 (Z.to_N levels)))) else None.
