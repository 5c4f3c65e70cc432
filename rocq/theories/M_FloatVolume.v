(** Volumes in IEEE arithmetic: the volume of the reference element, MultiLinearGeometry::volume and AffineGeometry::volume. *)
From Coq Require Import PeanoNat NArith ZArith Bool List.
From Flocq Require Import IEEE754.BinarySingleNaN.
From Verif Require Import M_Type M_RefTopo M_RefGeo M_Matrix M_Affine M_Float M_FloatGlobal M_FloatLocal.
Import ListNotations.

Section FV.
Variables (prec emax : Z).
Context (Hp : FLX.Prec_gt_0 prec) (He : Prec_lt_emax prec emax).
Notation float := (binary_float prec emax).
Notation FVec := (nat -> float).
Notation FMat := (nat -> nat -> float).
Notation "a - b" := (fsub prec emax Hp He a b).
Notation "a * b" := (fmul prec emax Hp He a b).
Notation "a / b" := (fdiv prec emax Hp He a b).

(** referenceelementimplementation.hh:153-157 [referenceVolume], hh:604, hh:552-555 *)
Definition freferenceVolume (topologyId : N) (dim : nat) : float :=
  ofZ prec emax Hp He 1 / ofZ prec emax Hp He (Z.of_N (referenceVolumeInverse topologyId dim)).

(** multilineargeometry.hh:363-366; refElement().position( 0, 0 ) is [fcenter] *)
Definition fmlg_volume (cdim : nat) (tid : N) (mydim : nat) (jm jk j1 j2 : FMat) (corners : list FVec) : option float :=
  obind (fmlg_integrationElement prec emax Hp He cdim tid mydim jm jk j1 j2 corners (fcenter prec emax Hp He tid mydim)) (fun d =>
  Some (d * freferenceVolume tid mydim)).

(** affinegeometry.hh:114-122: the constructor from corners reads the first mydim+1 of them; missing ones are undefined behaviour *)
Definition fai_corners (mydim cdim : nat) (corners : list FVec) (ret j1 j2 : FMat) : option (AffineFI prec emax) :=
  match corners with
  | [] => None
  | o :: l => if Nat.leb mydim (length l)
              then fai_make prec emax Hp He mydim cdim o (fun i k => nth i l o k - o k) ret j1 j2
              else None
  end.
(** affinegeometry.hh:197-200 *)
Definition fai_volume (tid : N) (mydim : nat) (g : AffineFI prec emax) : float :=
  fai_int prec emax g * freferenceVolume tid mydim.
End FV.
