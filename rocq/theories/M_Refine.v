(** Model of dune/geometry/refinement/{simplex,hcube,hcubetriangulation,prismtriangulation,
    pyramidtriangulation}.cc.

    Simplifications: [int] and [unsigned int] are unbounded natural numbers (all values that
    occur are nonnegative; overflow is treated in M_RefineInt.v); [FieldVector<int,n>] and
    [std::array<unsigned,n>] are functions of which the first n entries are meaningful;
    coordinates are exact real numbers.  [None] is a violated assertion or an access outside of
    a vector.  [Dune::power], [factorial], [binomial] are those of dune-common (math.hh, not in
    /repo) and modelled by their mathematical meaning. *)
From Coq Require Import PeanoNat NArith ZArith Bool List Reals Factorial.
From Verif Require Import M_Type M_RefTopo M_RefGeo M_Matrix M_MultiLinear M_Affine.
Import ListNotations.

Definition aset {A} (f : nat -> A) (i : nat) (x : A) : nat -> A := fun j => if Nat.eqb j i then x else f j.
(** FieldVector::operator== *)
Fixpoint veq (n : nat) (v w : nat -> nat) : bool :=
  match n with O => true | S n' => veq n' v w && Nat.eqb (v n') (w n') end.

(** Dune::binomial(n,k), 0 for k > n *)
Fixpoint binom (n k : nat) : nat :=
  match n, k with
  | _, O => 1
  | O, S _ => 0
  | S n', S k' => binom n' k' + binom n' k
  end.

(** ** refinement/simplex.cc *)

(** lines 279-286 *)
Definition pointIndex (dim : nat) (point : nat -> nat) : nat :=
  fold_left (fun index i => index + binom (dim - i + point i - 1) (dim - i)) (seq 0 dim) 0.

(** the loop of lines 303-308; perm[i-1-d] with d > i-1 is out of range *)
Fixpoint permLoop (i m base : nat) (perm : nat -> nat) : option (nat -> nat) :=
  match i with
  | O => Some perm
  | S i1 =>
      let base := base / i in
      let d := m / base in
      let m := m mod base in
      if i1 <? d then None else
      let t := perm i1 in
      let perm := aset perm i1 (perm (i1 - d)) in
      let perm := aset perm (i1 - d) t in
      permLoop i1 m base perm
  end.
(** lines 292-310 *)
Definition getPermutation (n m : nat) : option (nat -> nat) :=
  let base := fold_left (fun base i => base * i) (seq 1 n) 1 in
  permLoop n m base (fun i => i).

(** lines 319-330, for i = dimension-1 .. 1 *)
Fixpoint r2kLoop {A} (add : A -> A -> A) (kuhn : nat -> nat) (i : nat) (point : nat -> A) : nat -> A :=
  match i with
  | O => point
  | S i1 => r2kLoop add kuhn i1 (aset point (kuhn i1) (add (point (kuhn i1)) (point (kuhn i))))
  end.
Definition referenceToKuhn {A} (add : A -> A -> A) (dim : nat) (point : nat -> A) (kuhn : nat -> nat) : nat -> A :=
  r2kLoop add kuhn (dim - 1) point.
(** lines 338-349 *)
Definition kuhnToReference {A} (sub : A -> A -> A) (dim : nat) (point : nat -> A) (kuhn : nat -> nat) : nat -> A :=
  fold_left (fun point i => aset point (kuhn i) (sub (point (kuhn i)) (point (kuhn (S i))))) (seq 0 (dim - 1)) point.

(** lines 394-397 and 418-421 *)
Definition sx_nVertices (dim nIntervals : nat) : nat := binom (dim + nIntervals) dim.
Definition sx_nElements (dim nIntervals : nat) : nat := nIntervals ^ dim.

(** *** vertices, lines 449-535 *)
Record SVert := { sv_size : nat; sv_vertex : nat -> nat }.
(** lines 475-482; vBegin and vEnd are 402-413 *)
Definition sv_make (nIntervals : nat) (end_ : bool) : SVert :=
  {| sv_size := nIntervals; sv_vertex := fun i => if Nat.eqb i 0 then if end_ then nIntervals + 1 else 0 else 0 |}.
Definition sx_vBegin (nIntervals : nat) : SVert := sv_make nIntervals false.
Definition sx_vEnd (nIntervals : nat) : SVert := sv_make nIntervals true.
(** the loop of lines 490-496, for i = dim-1 .. 0 *)
Fixpoint incLoop (i : nat) (v : nat -> nat) : nat -> nat :=
  match i with
  | O => v
  | S i =>
      let v := aset v i (v i + 1) in
      if Nat.eqb i 0 || (v i <=? v (i - 1)) then v else incLoop i (aset v i 0)
  end.
(** lines 487-497 *)
Definition sv_increment (dim : nat) (s : SVert) : option SVert :=
  if sv_vertex s 0 <=? sv_size s
  then Some {| sv_size := sv_size s; sv_vertex := incLoop dim (sv_vertex s) |} else None.
(** lines 502-505 *)
Definition sv_equals (dim : nat) (s o : SVert) : bool :=
  Nat.eqb (sv_size s) (sv_size o) && veq dim (sv_vertex s) (sv_vertex o).
(** lines 510-518: the vertex is mapped back with integers, then divided *)
Definition sv_coords (dim : nat) (s : SVert) : option Vec :=
  obind (getPermutation dim 0) (fun perm =>
  let ref := kuhnToReference Z.sub dim (fun i => Z.of_nat (sv_vertex s i)) perm in
  Some (fun i => (IZR (ref i) / INR (sv_size s))%R)).
(** lines 522-527: the corners of the geometry *)
Definition sv_geometry (s : SVert) : list Vec := [fun i => INR (sv_vertex s i)].
(** lines 532-535 *)
Definition sv_index (dim : nat) (s : SVert) : nat := pointIndex dim (sv_vertex s).

(** *** elements, lines 539-694 *)
Record SElem := { se_origin : nat -> nat; se_kuhn : nat; se_size : nat; se_index : nat }.
(** lines 575-584 *)
Definition se_make (dim nIntervals : nat) (end_ : bool) : SElem :=
  if end_ then {| se_origin := fun i => if Nat.eqb i 0 then nIntervals else 0; se_kuhn := 0;
                  se_size := nIntervals; se_index := sx_nElements dim nIntervals |}
  else {| se_origin := fun _ => 0; se_kuhn := 0; se_size := nIntervals; se_index := 0 |}.
Definition sx_eBegin (dim nIntervals : nat) : SElem := se_make dim nIntervals false.
Definition sx_eEnd (dim nIntervals : nat) : SElem := se_make dim nIntervals true.
(** the test of lines 609-620; [n] iterations are left, [i] is the loop variable *)
Fixpoint outsideLoop (perm : nat -> nat) (n i : nat) (corner : nat -> nat) : bool :=
  match n with
  | O => false
  | S n =>
      let corner := aset corner (perm i) (corner (perm i) + 1) in
      if (0 <? perm i) && (corner (perm i - 1) <? corner (perm i)) then true
      else outsideLoop perm n (S i) corner
  end.
(** one round of the loop of lines 595-623: the new origin and Kuhn index, and whether the
    loop is left *)
Definition se_round (dim : nat) (origin : nat -> nat) (kuhn : nat) : option ((nat -> nat) * nat * bool) :=
  let kuhn := S kuhn in
  let '(origin, kuhn) := if Nat.eqb kuhn (fact dim) then (incLoop dim origin, 0) else (origin, kuhn) in
  obind (getPermutation dim kuhn) (fun perm =>
  Some (origin, kuhn, negb (outsideLoop perm dim 0 origin))).
Inductive Run (A : Type) := Ret (a : A) | Undef | NoFuel.
Arguments Ret {A}. Arguments Undef {A}. Arguments NoFuel {A}.
Fixpoint se_search (fuel dim : nat) (origin : nat -> nat) (kuhn : nat) : Run ((nat -> nat) * nat) :=
  match fuel with
  | O => NoFuel
  | S fuel =>
      match se_round dim origin kuhn with
      | None => Undef
      | Some (origin, kuhn, true) => Ret (origin, kuhn)
      | Some (origin, kuhn, false) => se_search fuel dim origin kuhn
      end
  end.
(** lines 589-624; the endless loop runs with fuel *)
Definition se_increment (fuel dim : nat) (s : SElem) : Run SElem :=
  if se_origin s 0 <? se_size s then
    match se_search fuel dim (se_origin s) (se_kuhn s) with
    | Ret (o, k) => Ret {| se_origin := o; se_kuhn := k; se_size := se_size s; se_index := S (se_index s) |}
    | Undef => Undef
    | NoFuel => NoFuel
    end
  else Undef.
(** lines 630-633 *)
Definition se_equals (s o : SElem) : bool :=
  Nat.eqb (se_size s) (se_size o) && Nat.eqb (se_index s) (se_index o).
(** the loop of lines 642-645: the point indices along the permutation *)
Fixpoint viLoop (dim : nat) (perm : nat -> nat) (n i : nat) (vertex : nat -> nat) (indices : nat -> nat) : nat -> nat :=
  match n with
  | O => indices
  | S n =>
      let vertex := aset vertex (perm i) (vertex (perm i) + 1) in
      viLoop dim perm n (S i) vertex (aset indices (i + 1) (pointIndex dim vertex))
  end.
(** lines 638-655 *)
Definition se_vertexIndices (dim : nat) (s : SElem) : option (nat -> nat) :=
  obind (getPermutation dim (se_kuhn s)) (fun perm =>
  let indices := aset (fun _ => 0) 0 (pointIndex dim (se_origin s)) in
  let indices := viLoop dim perm dim 0 (se_origin s) indices in
  Some (if Nat.eqb (se_kuhn s mod 2) 1
        then fold_left (fun indices i =>
               let t := indices i in
               let indices := aset indices i (indices (dim - i)) in
               aset indices (dim - i) t) (seq 0 ((dim + 1) / 2)) indices
        else indices)).
(** lines 688-694 *)
Definition se_global (dim : nat) (s : SElem) (local : Vec) : option Vec :=
  obind (getPermutation dim (se_kuhn s)) (fun perm =>
  let v := referenceToKuhn Rplus dim local perm in
  let v := fun i => ((v i + INR (se_origin s i)) / INR (se_size s))%R in
  obind (getPermutation dim 0) (fun perm0 => Some (kuhnToReference Rminus dim v perm0))).
(** GeometryTypes::simplex(dim): the topology id is 0 *)
Definition simplexId : N := 0%N.
(** all of a list of optional results *)
Fixpoint sequence {A} (l : list (option A)) : option (list A) :=
  match l with
  | [] => Some []
  | o :: l => obind o (fun a => obind (sequence l) (fun r => Some (a :: r)))
  end.
(** lines 668-672 and 676-683 *)
Definition se_coords (dim : nat) (r : RefElement) (s : SElem) : option Vec :=
  obind (re_position simplexId dim r 0 0) (se_global dim s).
Definition se_corners (dim : nat) (r : RefElement) (s : SElem) : option (list Vec) :=
  sequence (map (fun i => obind (re_position simplexId dim r i dim) (se_global dim s)) (seq 0 (dim + 1))).
Definition se_geometry (dim : nat) (r : RefElement) (s : SElem) : option MLGeo :=
  obind (se_corners dim r s) (fun cs => Some {| ml_id := simplexId; ml_ref := r; ml_corners := cs |}).

(** ** refinement/hcube.cc; an iterator is the index with the number of intervals *)
Definition hc_nVertices (dim nIntervals : nat) : nat := (nIntervals + 1) ^ dim.  (* 106-111 *)
Definition hc_nElements (dim nIntervals : nat) : nat := nIntervals ^ dim.        (* 131-138 *)
Record HIter := { hi_index : nat; hi_n : nat }.
Definition hc_vBegin (n : nat) : HIter := {| hi_index := 0; hi_n := n |}.         (* 115-128 *)
Definition hc_vEnd (dim n : nat) : HIter := {| hi_index := hc_nVertices dim n; hi_n := n |}.
Definition hc_eBegin (n : nat) : HIter := {| hi_index := 0; hi_n := n |}.         (* 142-155 *)
Definition hc_eEnd (dim n : nat) : HIter := {| hi_index := hc_nElements dim n; hi_n := n |}.
Definition hi_increment (s : HIter) : HIter := {| hi_index := S (hi_index s); hi_n := hi_n s |}.  (* 373-378 *)
Definition hi_equals (s o : HIter) : bool := Nat.eqb (hi_index s) (hi_index o) && Nat.eqb (hi_n s) (hi_n o). (* 364-369 *)
(** lines 320-330 *)
Definition idx2coord (dim idx w : nat) : nat -> nat :=
  snd (fold_left (fun '(idx, c) d => (idx / w, aset c d (idx mod w))) (seq 0 dim) (idx, fun _ => 0)).
(** lines 332-342, for d = dim .. 1 *)
Fixpoint c2iLoop (d : nat) (c : nat -> nat) (w i : nat) : nat :=
  match d with O => i | S d1 => c2iLoop d1 c w (i * w + c d1) end.
Definition coord2idx (dim : nat) (c : nat -> nat) (w : nat) : nat := c2iLoop dim c w 0.
(** lines 344-351 *)
Definition idx2multiidx (idx : nat) : nat -> nat := fun i => Nat.land (Nat.shiftr idx i) 1.
Definition hi_vertexCoord (dim : nat) (s : HIter) : nat -> nat := idx2coord dim (hi_index s) (hi_n s + 1).
Definition hi_cellCoord (dim : nat) (s : HIter) : nat -> nat := idx2coord dim (hi_index s) (hi_n s).
(** lines 200-211 *)
Definition hv_coords (dim : nat) (s : HIter) : Vec := fun d => (INR (hi_vertexCoord dim s d) * 1 / INR (hi_n s))%R.
(** lines 235-256; FieldVector initialises its entries with 0 *)
Definition he_vertexIndices (dim : nat) (s : HIter) : nat -> nat := fun i =>
  fst (fold_left (fun '(vec, base) d => (vec + (idx2multiidx i d + hi_cellCoord dim s d) * base, base * (hi_n s + 1)))
                 (seq 0 dim) (0, 1)).
(** lines 259-270 *)
Definition he_coords (dim : nat) (s : HIter) : Vec := fun d => ((INR (hi_cellCoord dim s d) * 1 + / 2) / INR (hi_n s))%R.
(** lines 390-417: AxisAlignedCubeGeometry(lower,upper) resp. (lower,upper,bitset(0)) *)
Definition he_geometry (dim : nat) (s : HIter) : AACube :=
  let intCoords := idx2coord dim (hi_index s) (hi_n s) in
  aac_make2 dim (fun j => (INR (intCoords j) / INR (hi_n s))%R) (fun j => (INR (intCoords j + 1) / INR (hi_n s))%R).
Definition hv_geometry (dim : nat) (s : HIter) : option AACube :=
  let intCoords := idx2coord dim (hi_index s) (hi_n s) in
  let lower := fun j => (INR (intCoords j) / INR (hi_n s))%R in
  aac_make3 0 dim lower lower (fun _ => false).

(** ** the three triangulations; they differ in the number of Kuhn simplices, the permutation
    number that belongs to a Kuhn index and in the final coordinate transformation *)
Record Triang := { tr_count : nat; tr_perm : nat -> nat; tr_transform : Vec -> Vec; tr_vtransform : Vec -> Vec }.
(** hcubetriangulation.cc:178,215 *)
Definition tr_cube (dim : nat) : Triang :=
  {| tr_count := fact dim; tr_perm := fun k => k; tr_transform := fun p => p; tr_vtransform := fun p => p |}.
(** prismtriangulation.cc:48-57, 180, 215, 353; the last field is what geometry() of a vertex uses
    (lines 221-227) *)
Definition prismTransform (p : Vec) : Vec :=
  fun i => match i with 0%nat => p 1%nat | 1%nat => (1 - p 0%nat)%R | _ => p i end.
Definition tr_prism : Triang :=
  {| tr_count := 3; tr_perm := fun k => (k + 2) mod 4; tr_transform := prismTransform; tr_vtransform := prismTransform |}.
(** pyramidtriangulation.cc:49-58, 183, 218; geometry() of a vertex (lines 224-229) omits it *)
Definition pyramidTransform (p : Vec) : Vec :=
  fun i => match i with 0%nat => (1 - p 0%nat)%R | 1%nat => (1 - p 1%nat)%R | _ => p i end.
Definition tr_pyramid : Triang :=
  {| tr_count := 2; tr_perm := fun k => k; tr_transform := pyramidTransform; tr_vtransform := fun p => p |}.

Section Triangulation.
Variables (dim : nat) (t : Triang).

(** hcubetriangulation.cc:103-108, 127-132; prismtriangulation.cc:103-108, 128-133;
    pyramidtriangulation.cc:106-111, 131-136 *)
Definition tr_nVertices (nIntervals : nat) : nat := sx_nVertices dim nIntervals * tr_count t.
Definition tr_nElements (nIntervals : nat) : nat := sx_nElements dim nIntervals * tr_count t.

(** *** vertices: hcubetriangulation.cc:151-232 and the corresponding parts of the others *)
Record TVert := { tv_n : nat; tv_kuhn : nat; tv_backend : SVert; tv_backendEnd : SVert }.
Definition tv_make (nIntervals : nat) (end_ : bool) : TVert :=
  {| tv_n := nIntervals; tv_kuhn := if end_ then tr_count t else 0;
     tv_backend := sx_vBegin nIntervals; tv_backendEnd := sx_vEnd nIntervals |}.
Definition tv_increment (s : TVert) : option TVert :=
  obind (sv_increment dim (tv_backend s)) (fun b =>
  Some (if sv_equals dim b (tv_backendEnd s)
        then {| tv_n := tv_n s; tv_kuhn := S (tv_kuhn s); tv_backend := sx_vBegin (tv_n s); tv_backendEnd := tv_backendEnd s |}
        else {| tv_n := tv_n s; tv_kuhn := tv_kuhn s; tv_backend := b; tv_backendEnd := tv_backendEnd s |})).
Definition tv_equals (s o : TVert) : bool :=
  Nat.eqb (tv_kuhn s) (tv_kuhn o) && sv_equals dim (tv_backend s) (tv_backend o).
Definition tv_coords (s : TVert) : option Vec :=
  obind (sv_coords dim (tv_backend s)) (fun c =>
  obind (getPermutation dim (tr_perm t (tv_kuhn s))) (fun perm =>
  Some (tr_transform t (referenceToKuhn Rplus dim c perm)))).
Definition tv_geometry (s : TVert) : option (list Vec) :=
  obind (sv_coords dim (tv_backend s)) (fun c =>
  obind (getPermutation dim (tr_perm t (tv_kuhn s))) (fun perm =>
  Some [tr_vtransform t (referenceToKuhn Rplus dim c perm)])).
Definition tv_index (s : TVert) : nat := tv_kuhn s * sx_nVertices dim (tv_n s) + sv_index dim (tv_backend s).

(** *** elements: hcubetriangulation.cc:235-349 and the corresponding parts of the others *)
Record TElem := { te_n : nat; te_kuhn : nat; te_backend : SElem; te_backendEnd : SElem }.
Definition te_make (nIntervals : nat) (end_ : bool) : TElem :=
  {| te_n := nIntervals; te_kuhn := if end_ then tr_count t else 0;
     te_backend := sx_eBegin dim nIntervals; te_backendEnd := sx_eEnd dim nIntervals |}.
Definition te_increment (fuel : nat) (s : TElem) : Run TElem :=
  match se_increment fuel dim (te_backend s) with
  | Ret b =>
      Ret (if se_equals b (te_backendEnd s)
           then {| te_n := te_n s; te_kuhn := S (te_kuhn s); te_backend := sx_eBegin dim (te_n s); te_backendEnd := te_backendEnd s |}
           else {| te_n := te_n s; te_kuhn := te_kuhn s; te_backend := b; te_backendEnd := te_backendEnd s |})
  | Undef => Undef
  | NoFuel => NoFuel
  end.
Definition te_equals (s o : TElem) : bool :=
  Nat.eqb (te_kuhn s) (te_kuhn o) && se_equals (te_backend s) (te_backend o).
Definition te_vertexIndices (s : TElem) : option (nat -> nat) :=
  obind (se_vertexIndices dim (te_backend s)) (fun indices =>
  let base := te_kuhn s * sx_nVertices dim (te_n s) in
  Some (fun i => indices i + base)).
Definition te_index (s : TElem) : nat := te_kuhn s * sx_nElements dim (te_n s) + se_index (te_backend s).
Definition te_global (s : TElem) (local : Vec) : option Vec :=
  obind (getPermutation dim (tr_perm t (te_kuhn s))) (fun perm =>
  Some (tr_transform t (referenceToKuhn Rplus dim local perm))).
Definition te_coords (r : RefElement) (s : TElem) : option Vec :=
  obind (se_coords dim r (te_backend s)) (te_global s).
Definition te_corners (r : RefElement) (s : TElem) : option (list Vec) :=
  obind (se_geometry dim r (te_backend s)) (fun bgeo =>
  sequence (map (fun i => obind (mlg_corner bgeo i) (te_global s)) (seq 0 (dim + 1)))).
Definition te_geometry (r : RefElement) (s : TElem) : option MLGeo :=
  obind (te_corners r s) (fun cs => Some {| ml_id := simplexId; ml_ref := r; ml_corners := cs |}).
End Triangulation.
