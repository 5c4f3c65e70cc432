(** CachedMultiLinearGeometry (multilineargeometry.hh:523-729) in IEEE arithmetic: the mutable members and the calls that fill them.  The exact counterpart is Cache in M_MultiLinear.v. *)
From Coq Require Import PeanoNat NArith ZArith Bool List.
From Flocq Require Import IEEE754.BinarySingleNaN.
From Verif Require Import M_Type M_RefTopo M_RefGeo M_Matrix M_Affine M_Float M_FloatGlobal M_FloatLocal M_FloatVolume.
Import ListNotations.

Section FK.
Variables (prec emax : Z).
Context (Hp : FLX.Prec_gt_0 prec) (He : Prec_lt_emax prec emax).
Notation float := (binary_float prec emax).
Notation FVec := (nat -> float).
Notation FMat := (nat -> nat -> float).
Notation "a - b" := (fsub prec emax Hp He a b).
Notation "a * b" := (fmul prec emax Hp He a b).

(** the data members, lines 722-728; jacobianInverseTransposed_ is a matrix with detInv_ *)
Record FCache := {
  fk_affine : bool;
  fk_jt : FMat;
  fk_jit : FMat;
  fk_detInv : float;
  fk_jitComputed : bool;
  fk_intComputed : bool }.

Variables (cdim : nat) (tid : N) (mydim : nat).
(** arbitrary contents of all uninitialised locals; the corners *)
Variables (jv : FVec) (jm jk j1 j2 : FMat).
Variable corners : list FVec.

(** lines 550-564; [jit0], [d0] are the uninitialised members *)
Definition fk_make (jit0 : FMat) (d0 : float) : option FCache :=
  obind (fml_affine prec emax Hp He cdim tid mydim jk mydim corners jm) (fun '(b, _, jt) =>
  Some {| fk_affine := b; fk_jt := jt; fk_jit := jit0; fk_detInv := d0; fk_jitComputed := false; fk_intComputed := false |}).

(** lines 604-617; the return value of xTRightInvA is ignored; [x0] is refElement().position(0,0) *)
Definition fk_local (fuel : nat) (x0 : FVec) (c : FCache) (y : FVec) : FLocResult prec emax :=
  if fk_affine c then
    match corners with
    | [] => NwUndefined prec emax
    | o :: _ =>
        if fk_jitComputed c then NwPt prec emax (fmtv prec emax Hp He cdim (fk_jit c) (fun k => y k - o k))
        else match fxTRightInvA prec emax Hp He mydim cdim (fk_jt c) (fun k => y k - o k) j1 j2 with
             | None => NwUndefined prec emax
             | Some (_, x) => NwPt prec emax x
             end
    end
  else fmlg_local prec emax Hp He cdim tid mydim jv jm jk j1 j2 corners fuel x0 y.
(** lines 633-646 with setupDeterminant 497-500 *)
Definition fk_integrationElement (c : FCache) (x : FVec) : option (float * FCache) :=
  if fk_affine c then
    obind (if negb (fk_intComputed c) then
             obind (fsqrtDetAAT prec emax Hp He mydim cdim (fk_jt c) j1 j2) (fun d =>
             Some {| fk_affine := fk_affine c; fk_jt := fk_jt c; fk_jit := fk_jit c; fk_detInv := d;
                     fk_jitComputed := fk_jitComputed c; fk_intComputed := true |})
           else Some c) (fun c => Some (fk_detInv c, c))
  else obind (fmlg_integrationElement prec emax Hp He cdim tid mydim jm jk j1 j2 corners x) (fun d => Some (d, c)).
(** lines 649-655 *)
Definition fk_volume (c : FCache) : option (float * FCache) :=
  if fk_affine c then
    obind (fk_integrationElement c (fcenter prec emax Hp He tid mydim)) (fun '(d, c) =>
    Some (d * freferenceVolume prec emax Hp He tid mydim, c))
  else obind (fmlg_volume prec emax Hp He cdim tid mydim jm jk j1 j2 corners) (fun v => Some (v, c)).
(** lines 666-672 *)
Definition fk_jacobianTransposed (c : FCache) (x : FVec) : option FMat :=
  if fk_affine c then Some (fk_jt c) else fmlg_jacobianTransposed prec emax Hp He cdim tid mydim jm jk corners x.
(** lines 736-743 with 492-495 of the base class: (detInv_, matrix) *)
Definition fmlg_jacobianInverseTransposed (x : FVec) : option (float * FMat) :=
  obind (fmlg_jacobianTransposed prec emax Hp He cdim tid mydim jm jk corners x) (fun jt => frightInvA prec emax Hp He mydim cdim jt jm j1 j2).
(** lines 680-694 *)
Definition fk_jacobianInverseTransposed (c : FCache) (x : FVec) : option (float * FMat * FCache) :=
  if fk_affine c then
    obind (if negb (fk_jitComputed c) then
             obind (frightInvA prec emax Hp He mydim cdim (fk_jt c) (fk_jit c) j1 j2) (fun '(d, jit) =>
             Some {| fk_affine := fk_affine c; fk_jt := fk_jt c; fk_jit := jit; fk_detInv := d;
                     fk_jitComputed := true; fk_intComputed := true |})
           else Some c) (fun c => Some (fk_detInv c, fk_jit c, c))
  else obind (fmlg_jacobianInverseTransposed x) (fun '(d, jit) => Some (d, jit, c)).

(** a history: the calls that change the members (the others are const in effect) *)
Inductive FCall := FIntEl (x : FVec) | FVolume | FJIT (x : FVec).
Definition fk_call (c : FCache) (q : FCall) : option FCache :=
  match q with
  | FIntEl x => option_map snd (fk_integrationElement c x)
  | FVolume => option_map snd (fk_volume c)
  | FJIT x => option_map snd (fk_jacobianInverseTransposed c x)
  end.
Fixpoint fk_run (c : FCache) (qs : list FCall) : option FCache :=
  match qs with
  | [] => Some c
  | q :: qs => obind (fk_call c q) (fun c => fk_run c qs)
  end.
End FK.
