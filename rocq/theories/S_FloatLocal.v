(** Specification vocabulary for the inverse mappings in floating point arithmetic (C70). *)
From Coq Require Import PeanoNat ZArith Bool List Reals.
From Flocq Require Import Core IEEE754.BinarySingleNaN.
From Verif Require Import M_Float M_FloatGlobal M_FloatLocal.

Section D.
Variables (prec emax : Z).
Context (Hp : Prec_gt_0 prec) (He : Prec_lt_emax prec emax).
Notation float := (binary_float prec emax).
Notation FVec := (nat -> float).
Notation FMat := (nat -> nat -> float).
Notation "a - b" := (fsub prec emax Hp He a b).
Notation "a * b" := (fmul prec emax Hp He a b).

(** ** sequences of updates x, x - dx(x), ... *)
Section O.
Variable step : FVec -> option (bool * FVec).
(** z is what the iteration has after n updates, all of which the test on them lets continue *)
Inductive orbit (goon : FVec -> bool) : nat -> FVec -> FVec -> Prop :=
  | orbit_0 : forall x, orbit goon 0 x x
  | orbit_S : forall n x dx z, step x = Some (true, dx) -> goon dx = true -> orbit goon n (fun k => x k - dx k) z -> orbit goon (S n) x z.
End O.

(** ** gaussNewton *)
Variables (mydim cdim : nat) (j1 j2 : FMat) (f : FVec -> option FVec) (df : FVec -> option FMat) (y : FVec) (theta : float) (inner : nat).

(** the computed residual norm of the point x is r *)
Definition fresidual (x : FVec) (r : float) : Prop := exists fx, f x = Some fx /\ r = ftwo_norm prec emax Hp He cdim (fun k => fx k - y k).
(** the computed search direction at x is dx *)
Definition fdirection (x dx : FVec) : Prop :=
  exists fx J, f x = Some fx /\ df x = Some J /\ fxTRightInvA prec emax Hp He mydim cdim J (fun k => fx k - y k) j1 j2 = Some (true, dx).
(** the step lengths 1, theta, theta*theta, ... as they are computed *)
Fixpoint flength (j : nat) : float := match j with O => ofZ prec emax Hp He 1 | S j => flength j * theta end.
Definition ftrial (x dx : FVec) (j : nat) : FVec := fun k => x k - flength j * dx k.
(** the j-th step length was tried and did not help *)
Definition fno_gain (x dx : FVec) (j : nat) : Prop :=
  exists r r', fresidual x r /\ fresidual (ftrial x dx j) r' /\ Bltb r' r = false.
(** one accepted step *)
Definition faccepted (x x' : FVec) : Prop :=
  exists dx j r r', fdirection x dx /\ (j < inner)%nat /\ x' = ftrial x dx j /\
    fresidual x r /\ fresidual x' r' /\ Bltb r' r = true /\ forall i, (i < j)%nat -> fno_gain x dx i.
Inductive fdescent : nat -> FVec -> FVec -> Prop :=
  | fdescent_0 : forall x, fdescent 0 x x
  | fdescent_S : forall n x x' z, faccepted x x' -> fdescent n x' z -> fdescent (S n) x z.
End D.
