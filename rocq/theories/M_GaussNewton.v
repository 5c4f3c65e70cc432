(** Model of dune/geometry/utility/algorithms.hh (gaussNewton), mappedgeometry.hh and
    localfiniteelementgeometry.hh.

    Scalars are exact real numbers.  The function objects are arbitrary functions into
    options, [None] standing for a failed assertion inside them.  [j1], [j2] are the
    uninitialised temporaries of the matrix helper. *)
From Coq Require Import PeanoNat NArith ZArith Bool List Reals.
From Verif Require Import M_Type M_RefTopo M_RefGeo M_Matrix M_Affine M_MultiLinear.
Import ListNotations.
Local Open Scope R_scope.

(** algorithms.hh:24-38 *)
Record GNOpts := { gn_maxIt : Z; gn_absTol : R; gn_maxInnerIt : Z; gn_theta : R }.
(** algorithms.hh:42-48 *)
Inductive GNCode := GN_OK | GN_JACOBIAN_NOT_INVERTIBLE | GN_STAGNATION | GN_TOLERANCE_NOT_REACHED.

(** FieldVector::two_norm (dune-common) *)
Definition two_norm (n : nat) (x : Vec) : R := sqrt (norm2 n x).

Section GN.
Variables (mydim cdim : nat) (j1 j2 : Mat).
Variables (f : Vec -> option Vec) (df : Vec -> option Mat) (y : Vec) (o : GNOpts).

(** the line search, lines 84-94: n iterations left; state (x, dy, resNorm) *)
Fixpoint gn_search (n : nat) (x0 dx : Vec) (resNorm0 alpha : R) (st : Vec * Vec * R) : option (Vec * Vec * R) :=
  match n with
  | O => Some st
  | S n =>
      let x := fun k => x0 k - alpha * dx k in
      obind (f x) (fun fx =>
      let dy := fun k => fx k - y k in
      let resNorm := two_norm cdim dy in
      if Rltb resNorm resNorm0 then Some (x, dy, resNorm)
      else gn_search n x0 dx resNorm0 (alpha * gn_theta o) (x, dy, resNorm))
  end.

(** the outer loop and the end, lines 74-112: n iterations left; the code and x0 *)
Fixpoint gn_loop (n : nat) (x dy x0 : Vec) (resNorm0 resNorm : R) : option (GNCode * Vec) :=
  match n with
  | O => if negb (Rltb resNorm (gn_absTol o)) then Some (GN_TOLERANCE_NOT_REACHED, x0) else Some (GN_OK, x0)
  | S n =>
      obind (df x) (fun J =>
      obind (xTRightInvA mydim cdim J dy j1 j2) (fun '(invertible, dx) =>
      if negb invertible then Some (GN_JACOBIAN_NOT_INVERTIBLE, x0)
      else
        obind (gn_search (Z.to_nat (gn_maxInnerIt o)) x0 dx resNorm0 1 (x, dy, resNorm)) (fun '(x, dy, resNorm) =>
        if negb (Rltb resNorm resNorm0) then Some (GN_STAGNATION, x0)
        else if Rltb resNorm (gn_absTol o) then Some (GN_OK, x)
        else gn_loop n x dy x resNorm resNorm)))
  end.

(** lines 62-113: the returned code and the final value of the argument x0 *)
Definition gaussNewton (x0 : Vec) : option (GNCode * Vec) :=
  obind (f x0) (fun fx =>
  let dy := fun k => fx k - y k in
  gn_loop (Z.to_nat (gn_maxIt o)) x0 dy x0 (two_norm cdim dy) 0).
End GN.

(** ** MappedGeometry (mappedgeometry.hh:64-353)

    The wrapped geometry is given by its member functions: local dimension [mg_mydim], global
    dimension [mg_gdim]; the mapping leads from there to dimension [mg_cdim]. *)
Record WrappedGeo := {
  wg_id : N; wg_ref : RefElement;
  wg_corner : nat -> option Vec;
  wg_center : option Vec;
  wg_global : Vec -> option Vec;
  wg_jacobian : Vec -> option Mat }.
Record MappedGeo := { mg_map : Vec -> Vec; mg_dmap : Vec -> Mat; mg_geo : WrappedGeo; mg_affine : bool }.

(** a quadrature rule is a list of positions and weights (quadraturerules.hh:66-112) *)
Definition Rule := list (Vec * R).
(** mappedgeometry.hh:259-265 and localfiniteelementgeometry.hh:294-300 *)
Fixpoint volume_sum (intel : Vec -> option R) (q : Rule) (vol : R) : option R :=
  match q with
  | [] => Some vol
  | (p, w) :: q => obind (intel p) (fun i => volume_sum intel q (vol + i * w))
  end.
(** convergence.hh:13-20 *)
Record ConvOpts := { co_maxIt : Z; co_absTol : R }.
(** mappedgeometry.hh:247-255 and localfiniteelementgeometry.hh:282-290: n rounds left,
    current order p *)
Fixpoint volume_loop (rule : Z -> option Rule) (intel : Vec -> option R) (tol : R) (n : nat) (p : Z) (vol0 : R) : option R :=
  match n with
  | O => Some vol0
  | S n =>
      obind (rule p) (fun q =>
      obind (volume_sum intel q 0) (fun vol1 =>
      if Rltb (Rabs (vol1 - vol0)) tol then Some vol1
      else volume_loop rule intel tol n (p + 1)%Z vol1))
  end.
(** mappedgeometry.hh:241-256 and localfiniteelementgeometry.hh:276-291 *)
Definition volume_iter (rule : Z -> option Rule) (intel : Vec -> option R) (affine : option bool) (o : ConvOpts) : option R :=
  obind (rule 1%Z) (fun q =>
  obind (volume_sum intel q 0) (fun vol0 =>
  obind affine (fun a =>
  if a then Some vol0
  else volume_loop rule intel (co_absTol o) (Z.to_nat (co_maxIt o - 2)) 2%Z vol0))).

Section Mapped.
Variables (mydim gdim cdim : nat) (ret j1 j2 : Mat).
(** lines 155-159, 162-165, 176-179 *)
Definition mg_corner (g : MappedGeo) (i : nat) : option Vec := option_map (mg_map g) (wg_corner (mg_geo g) i).
Definition mg_center (g : MappedGeo) : option Vec := option_map (mg_map g) (wg_center (mg_geo g)).
Definition mg_global (g : MappedGeo) (local : Vec) : option Vec := option_map (mg_map g) (wg_global (mg_geo g) local).
(** lines 272-277 (FieldMatrix product) *)
Definition mg_jacobian (g : MappedGeo) (local : Vec) : option Mat :=
  obind (wg_jacobian (mg_geo g) local) (fun jLocal =>
  obind (wg_global (mg_geo g) local) (fun p =>
  let jMapping := mg_dmap g p in
  Some (fun i j => rsum gdim (fun k => jMapping i k * jLocal k j)))).
(** lines 284-287, 225-228 *)
Definition mg_jacobianTransposed (g : MappedGeo) (local : Vec) : option Mat :=
  option_map (fun J i j => J j i) (mg_jacobian g local).
Definition mg_integrationElement (g : MappedGeo) (local : Vec) : option R :=
  obind (mg_jacobianTransposed g local) (fun jt => sqrtDetAAT mydim cdim jt j1 j2).
(** lines 296-301, 310-313 *)
Definition mg_jacobianInverse (g : MappedGeo) (local : Vec) : option Mat :=
  obind (mg_jacobian g local) (fun J => option_map snd (leftInvA cdim mydim J ret j1 j2)).
Definition mg_jacobianInverseTransposed (g : MappedGeo) (local : Vec) : option Mat :=
  option_map (fun J i j => J j i) (mg_jacobianInverse g local).
(** lines 197-213; [Some None] is the exception *)
Definition mg_local (g : MappedGeo) (y : Vec) (o : GNOpts) : option (option Vec) :=
  obind (re_position (wg_id (mg_geo g)) mydim (wg_ref (mg_geo g)) 0 0) (fun x =>
  obind (gaussNewton mydim cdim j1 j2 (mg_global g) (mg_jacobianTransposed g) y o x) (fun '(err, x) =>
  Some (match err with GN_OK => Some x | _ => None end))).
(** lines 241-256 *)
Definition mg_volume (rule : Z -> option Rule) (g : MappedGeo) (o : ConvOpts) : option R :=
  volume_iter rule (mg_integrationElement g) (Some (mg_affine g)) o.
End Mapped.

(** ** LocalFiniteElementGeometry (localfiniteelementgeometry.hh:37-437)

    The finite element is its order, the shape function values and their 1 x mydim
    Jacobians.  [lf_aff] is the optional affine_ of line 436. *)
Record LFE := { fe_order : Z; fe_values : Vec -> list R; fe_jacobians : Vec -> list Vec }.
Record LFEGeo := { lf_id : N; lf_ref : RefElement; lf_fe : LFE; lf_vertices : list Vec }.

Section Local.
Variables (mydim cdim : nat) (tol : R) (junk ret j1 j2 : Mat).
(** lines 202-213; line 206 is the assertion *)
Definition lf_global (g : LFEGeo) (local : Vec) : option Vec :=
  let shapeValues := fe_values (lf_fe g) local in
  if Nat.eqb (length shapeValues) (length (lf_vertices g)) then
    Some (forN (length shapeValues) (fun i out => vaxpy cdim (nth i shapeValues 0) (nth i (lf_vertices g) vzero) out) vzero)
  else None.
(** lines 307-320; umtv of a 1 x mydim matrix *)
Definition lf_jacobian (g : LFEGeo) (local : Vec) : option Mat :=
  let shapeJacobians := fe_jacobians (lf_fe g) local in
  if Nat.eqb (length shapeJacobians) (length (lf_vertices g)) then
    Some (forN (length shapeJacobians) (fun i out =>
      forN cdim (fun j out => mrow out j (vaxpy mydim (nth i (lf_vertices g) vzero j) (nth i shapeJacobians vzero) (out j))) out) mzero)
  else None.
(** lines 327-330, 260-263, 339-344, 353-356 *)
Definition lf_jacobianTransposed (g : LFEGeo) (local : Vec) : option Mat :=
  option_map (fun J i j => J j i) (lf_jacobian g local).
Definition lf_integrationElement (g : LFEGeo) (local : Vec) : option R :=
  obind (lf_jacobianTransposed g local) (fun jt => sqrtDetAAT mydim cdim jt j1 j2).
Definition lf_jacobianInverse (g : LFEGeo) (local : Vec) : option Mat :=
  obind (lf_jacobian g local) (fun J => option_map snd (leftInvA cdim mydim J ret j1 j2)).
Definition lf_jacobianInverseTransposed (g : LFEGeo) (local : Vec) : option Mat :=
  option_map (fun J i j => J j i) (lf_jacobianInverse g local).
(** lines 173-176, 179-183, 186-189 *)
Definition lf_corners (g : LFEGeo) : nat := size (lf_id g) mydim mydim.
Definition lf_corner (g : LFEGeo) (i : nat) : option Vec :=
  obind (re_position (lf_id g) mydim (lf_ref g) i mydim) (lf_global g).
Definition lf_center (g : LFEGeo) : option Vec :=
  obind (re_position (lf_id g) mydim (lf_ref g) 0 0) (lf_global g).
(** lines 232-248 *)
Definition lf_local (g : LFEGeo) (y : Vec) (o : GNOpts) : option (option Vec) :=
  obind (re_position (lf_id g) mydim (lf_ref g) 0 0) (fun x =>
  obind (gaussNewton mydim cdim j1 j2 (lf_global g) (lf_jacobianTransposed g) y o x) (fun '(err, x) =>
  Some (match err with GN_OK => Some x | _ => None end))).

(** f(0), ..., f(n-1); the lazily transformed range of lines 409-410 *)
Fixpoint ocollect {A} (n : nat) (f : nat -> option A) : option (list A) :=
  match n with
  | O => Some []
  | S n => obind (ocollect n f) (fun l => obind (f n) (fun a => Some (l ++ [a])))
  end.
(** lines 414-418, corners i .. i+n-1 *)
Fixpoint lf_check (g : LFEGeo) (a : AffGeo) (n i : nat) : option bool :=
  match n with
  | O => Some true
  | S n =>
      obind (re_position (lf_id g) mydim (lf_ref g) i mydim) (fun corner =>
      obind (lf_global g corner) (fun c =>
      if Rltb tol (two_norm cdim (fun k => ag_global mydim a corner k - c k)) then Some false
      else lf_check g a n (S i)))
  end.
(** lines 384-423; [tol] is the root of the machine precision *)
Definition lf_affineImpl (g : LFEGeo) : option bool :=
  if Nat.eqb mydim 0 then Some true
  else if (1 <? fe_order (lf_fe g))%Z then Some false
  else if Nat.eqb mydim 1 then Some true
  else if isSimplex (GT2 (lf_id g) mydim) then Some true
  else
    let sid := gt_id (simplex mydim) in
    obind (re_infos sid mydim) (fun refSimplex =>
    obind (ocollect (size sid mydim mydim) (fun i => obind (re_position sid mydim refSimplex i mydim) (lf_global g))) (fun simplexCorners =>
    obind (affine_from_corners mydim cdim sid refSimplex simplexCorners junk ret j1 j2) (fun affineGeo =>
    lf_check g affineGeo (lf_corners g) 0))).
(** lines 159-164: the answer and the new value of the optional *)
Definition lf_affine (g : LFEGeo) (aff : option bool) : option (bool * option bool) :=
  match aff with
  | Some a => Some (a, aff)
  | None => obind (lf_affineImpl g) (fun a => Some (a, Some a))
  end.
(** lines 276-291; the optional is ignored: [lf_affine] always gives the same answer *)
Definition lf_volume (rule : Z -> option Rule) (g : LFEGeo) (aff : option bool) (o : ConvOpts) : option R :=
  volume_iter rule (lf_integrationElement g) (option_map fst (lf_affine g aff)) o.
End Local.
