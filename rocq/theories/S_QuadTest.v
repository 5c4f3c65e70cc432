(** Vocabulary for the statements about the quadrature test program. *)
From Coq Require Import NArith ZArith PeanoNat Bool List Reals.
From Verif Require Import M_Type M_RefGeo M_Quadrature S_Topo S_RefGeo S_QuadND.
Import ListNotations.
Local Open Scope R_scope.

(** the reference elements with a name: cubes and simplices of every dimension, prism, pyramid *)
Definition namedType (t : GeometryType) : Prop :=
  isCube t = true \/ isSimplex t = true \/ isPrismT t = true \/ isPyramidT t = true.

(** how large the error of an integral of a power x^n may be, relative to the sum of the absolute
    values of the two numbers compared *)
Definition tolerance (eps : R) (n : nat) : R :=
  match n with O => 2 * eps | S _ => 2 ^ n * INR n * eps end.

(** the rule integrates the n-th powers of the coordinates over [T] up to the tolerance *)
Definition powersOk (eps : R) (T : Topo) (n : nat) (pts : list QPoint) : Prop :=
  forall k, (k < tdim T)%nat ->
    let I := quad pts (fun x => x k ^ n) in
    let E := Iint T (fun x => x k ^ n) in
    Rabs (I - E) <= tolerance eps n * (Rabs I + Rabs E).
(** the weights sum to the volume up to eps per point *)
Definition weightsOk (eps : R) (T : Topo) (pts : list QPoint) : Prop :=
  Rabs (quad pts (fun _ => 1) - volumeT T) <= INR (length pts) * eps.

(** the distance of 1 to the next double *)
Definition epsDouble : R := / 2 ^ 52.
