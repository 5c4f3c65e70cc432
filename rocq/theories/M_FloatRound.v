(** AffineGeometry::global in IEEE arithmetic, for the same object as AffineGeometry::local ([fai_local] in M_FloatLocal.v). *)
From Coq Require Import PeanoNat ZArith.
From Flocq Require Import IEEE754.BinarySingleNaN.
From Verif Require Import M_Float M_FloatGlobal M_FloatLocal.

(** affinegeometry.hh:154-159: a copy of the origin, then umtv *)
Definition fai_global (prec emax : Z) (Hp : FLX.Prec_gt_0 prec) (He : Prec_lt_emax prec emax) (cdim mydim : nat) (g : AffineFI prec emax) (local : nat -> binary_float prec emax) : nat -> binary_float prec emax :=
  fumtv prec emax Hp He cdim mydim (fai_jt prec emax g) local (fai_origin prec emax g).
