(** Model of dune/geometry/quadraturerules/compositequadraturerule.hh. *)
From Coq Require Import NArith ZArith PeanoNat Bool List Reals.
From Verif Require Import M_Type M_RefTopo M_RefGeo M_Quadrature M_MultiLinear M_Refine.
Import ListNotations.
Local Open Scope R_scope.

Section Composite.
(** dimension; tolerance of the geometry; contents of its uninitialised locals; the reference
    element of the refinement's geometries *)
Variables (dim : nat) (tol : R) (jv : Vec) (jm jk j1 j2 : Mat) (r : RefElement).

(** lines 50-58: the points of one element; geometry() is called for every point and gives
    the same geometry each time *)
Definition comp_element (volume : R) (quad : list QPoint) (s : SElem) : option (list QPoint) :=
  obind (se_geometry dim r s) (fun g =>
  obind (mlg_volume dim dim tol jm jk j1 j2 g) (fun v =>
  sequence (map (fun q => option_map (fun x => (x, v / volume * snd q)) (mlg_global dim dim tol jv g (fst q))) quad))).

(** lines 48-60: for (; eSubIt != eSubEnd; ++eSubIt); [rounds] and [fuel] bound the two loops *)
Fixpoint comp_loop (fuel rounds : nat) (n : nat) (volume : R) (quad : list QPoint) (s : SElem) : option (list QPoint) :=
  if se_equals s (sx_eEnd dim n) then Some [] else
  match rounds with
  | O => None
  | S rounds =>
      obind (comp_element volume quad s) (fun ps =>
      match se_increment fuel dim s with
      | Ret s' => option_map (app ps) (comp_loop fuel rounds n volume quad s')
      | _ => None
      end)
  end.

(** lines 31-62.  The assertion of line 35 is active.  intervals.intervals() is n
    (refinement/base.cc:87-101).  Line 43: the volume of the reference element of the type. *)
Definition composite (fuel rounds : nat) (quad : Rule) (n : nat) : option Rule :=
  if isSimplex (ru_type quad) then
    option_map (mkRule (ru_type quad) (ru_order quad))
      (comp_loop fuel rounds n (referenceVolume (gt_id (ru_type quad)) dim) (ru_points quad) (sx_eBegin dim n))
  else None.
End Composite.

(** refinement/base.cc:87-101 RefinementIntervals and 107-120: refinementIntervals(i) keeps
    i, refinementLevels(l) is 1 << l *)
Definition refinementIntervals (intervals : nat) : nat := intervals.
Definition refinementLevels (levels : nat) : nat := Nat.shiftl 1 levels.
