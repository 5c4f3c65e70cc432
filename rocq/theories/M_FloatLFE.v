(** LocalFiniteElementGeometry, the shape functions of order one and the numerical volume in IEEE arithmetic; the exact counterparts are in M_GaussNewton.v and M_LocalFE.v.

    The basis enters through the vectors that evaluateFunction and evaluateJacobian fill. *)
From Coq Require Import PeanoNat NArith ZArith Bool List.
From Flocq Require Import IEEE754.BinarySingleNaN.
From Verif Require Import M_Type M_RefTopo M_RefGeo M_Matrix M_LocalFE M_Float M_FloatGlobal M_FloatLocal.
Import ListNotations.

Section FE.
Variables (prec emax : Z).
Context (Hp : FLX.Prec_gt_0 prec) (He : Prec_lt_emax prec emax).
Notation float := (binary_float prec emax).
Notation FVec := (nat -> float).
Notation FMat := (nat -> nat -> float).
Notation "a + b" := (fadd prec emax Hp He a b).
Notation "a - b" := (fsub prec emax Hp He a b).
Notation "a * b" := (fmul prec emax Hp He a b).
Notation one := (ofZ prec emax Hp He 1).
Notation zero := (B754_zero false : float).
Notation upd := (fupd prec emax).
Notation fzeros := (fun _ : nat => zero).

(** localfiniteelements.hh:41-53 *)
Definition fp1_values (dim : nat) (x : FVec) : list float :=
  entries (S dim) (forN dim (fun i out => upd (upd out 0 (out 0%nat - x i)) (S i) (x i)) (upd fzeros 0 one)).
(** localfiniteelements.hh:56-65 *)
Definition fp1_jacobians (dim : nat) (x : FVec) : list FVec :=
  entries (S dim) (fun i j => match i with O => Bopp one | S i => if Nat.eqb i j then one else zero end).
(** localfiniteelements.hh:82-94; 1 - x[j] converts 1 *)
Definition fq1_factor (x : FVec) (i j : nat) : float := if Nat.testbit i j then x j else one - x j.
Definition fq1_values (dim : nat) (x : FVec) : list float :=
  entries (2 ^ dim) (fun i => forN dim (fun j out => out * fq1_factor x i j) one).
(** localfiniteelements.hh:97-119 *)
Definition fq1_jacobians (dim : nat) (x : FVec) : list FVec :=
  entries (2 ^ dim) (fun i j =>
    forN dim (fun l o => if negb (Nat.eqb j l) then o * fq1_factor x i l else o) (if Nat.testbit i j then one else Bopp one)).

(** localfiniteelementgeometry.hh:202-213; line 206 is the assertion *)
Definition flf_global (cdim : nat) (shapeValues : list float) (vertices : list FVec) : option FVec :=
  if Nat.eqb (length shapeValues) (length vertices) then
    Some (forN (length shapeValues) (fun i out => faxpy prec emax Hp He cdim (nth i shapeValues zero) (nth i vertices fzeros) out) fzeros)
  else None.
(** localfiniteelementgeometry.hh:307-320; umtv of a 1 x mydim matrix multiplies the entry with the coefficient *)
Definition flf_jacobian (cdim mydim : nat) (shapeJacobians : list FVec) (vertices : list FVec) : option FMat :=
  if Nat.eqb (length shapeJacobians) (length vertices) then
    Some (forN (length shapeJacobians) (fun i out =>
      forN cdim (fun j out => fmrow prec emax out j (fset prec emax mydim (fun l => out j l + nth i shapeJacobians fzeros l * nth i vertices fzeros j) (out j))) out) (fun _ => fzeros))
  else None.
(** localfiniteelementgeometry.hh:260-263, 327-330 *)
Definition flf_integrationElement (cdim mydim : nat) (j1 j2 : FMat) (shapeJacobians : list FVec) (vertices : list FVec) : option float :=
  obind (flf_jacobian cdim mydim shapeJacobians vertices) (fun J => fsqrtDetAAT prec emax Hp He mydim cdim (fun i j => J j i) j1 j2).

(** localfiniteelementgeometry.hh:294-300 and mappedgeometry.hh:259-265 *)
Fixpoint fvolume_sum (intel : FVec -> option float) (q : list (FVec * float)) (vol : float) : option float :=
  match q with
  | [] => Some vol
  | (x, w) :: q => obind (intel x) (fun m => fvolume_sum intel q (vol + m * w))
  end.
(** localfiniteelementgeometry.hh:283-290: [n] orders from p on; a missing rule is None *)
Fixpoint fvolume_loop (rule : Z -> option (list (FVec * float))) (intel : FVec -> option float) (tol : float) (n : nat) (p : Z) (vol0 : float) : option float :=
  match n with
  | O => Some vol0
  | S n =>
      obind (rule p) (fun q =>
      obind (fvolume_sum intel q zero) (fun vol1 =>
      if fgt prec emax tol (Babs (vol1 - vol0)) then Some vol1
      else fvolume_loop rule intel tol n (p + 1)%Z vol1))
  end.
(** localfiniteelementgeometry.hh:276-291 and mappedgeometry.hh:241-256 *)
Definition fvolume_iter (rule : Z -> option (list (FVec * float))) (intel : FVec -> option float) (affine : bool) (maxIt : Z) (tol : float) : option float :=
  obind (rule 1%Z) (fun q =>
  obind (fvolume_sum intel q zero) (fun vol0 =>
  if affine then Some vol0
  else fvolume_loop rule intel tol (Z.to_nat (maxIt - 2)) 2%Z vol0)).
End FE.
