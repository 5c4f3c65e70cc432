(** Specification vocabulary for C67. *)
From Coq Require Import PeanoNat NArith ZArith QArith Qreals Bool List Reals.
From Flocq Require Import Core IEEE754.BinarySingleNaN.
From Verif Require Import M_RefGeo M_Quadrature M_FloatQuad S_QuadND.
Import ListNotations.
Local Open Scope R_scope.

Section Spec.
Variables (prec emax : Z).
Notation float := (binary_float prec emax).
Notation u := (bpow radix2 (- prec)).
(** half of the smallest positive number *)
Notation eta := (bpow radix2 (2 - emax - prec)).

(** [x] is the number [v] of absolute value at most 2, converted with an error of at most [K]
    roundings; a number in [0,1] stays in [0,1] *)
Definition converted (K : R) (v : R) (x : float) : Prop :=
  is_finite x = true /\ Rabs (B2R x - v) <= K * (u * Rabs v + eta)
  /\ (0 <= v <= 1 -> 0 <= B2R x <= 1 /\ Rabs (B2R x - v) <= K * u).
Definition litOk (K : R) (lit : Q -> float) : Prop := forall q, Rabs (Q2R q) <= 2 -> converted K (Q2R q) (lit q).
(** the computed eigenvalues and weights against the exact ones *)
Definition lapackFOk (K : R) (lapack : Z -> nat -> option (list (R * R))) (lapackF : Z -> nat -> option (list (float * float))) : Prop :=
  forall p alpha, match lapack p alpha, lapackF p alpha with
  | None, None => True
  | Some l, Some l' => (length l <= 64)%nat /\ Forall2 (fun a b => converted K (fst a) (fst b) /\ converted K (snd a) (snd b)) l l'
  | _, _ => False
  end.
(** the values of a rule *)
Definition realPts (pts : list (FQPoint prec emax)) : list QPoint :=
  map (fun q => ((fun k => B2R (fst q k)) : Vec, B2R (snd q))) pts.
(** sum of the differences of the weights *)
Fixpoint weightDiff (pts : list (FQPoint prec emax)) (pts' : list QPoint) : R :=
  match pts, pts' with
  | q :: l, q' :: l' => Rabs (B2R (snd q) - snd q') + weightDiff l l'
  | _, _ => 0
  end.

(** number of rounded factors in the weights of dimension [d] *)
Definition factors (d : nat) : nat := (d * (d + 3) / 2)%nat.
(** relative error of the weights *)
Definition werr (K : R) (dim : nat) : R := 2 * INR (factors dim) * ((2 * K + 3) * u).
(** error of the coordinates *)
Definition perr (K : R) (dim k : nat) : R := (K + INR (dim - 1 - k) * (K + 2)) * u.
(** the dimensions for which precision and range of the exponents suffice *)
Definition fits (K : R) (dim : nat) : Prop := (6 * Z.of_nat dim <= emax - 2)%Z /\ werr K dim <= 1.
End Spec.
(** what the weights of a one dimensional rule sum to, with room for the error of the tables and the
    negative weight of the triangle rule of order 3 *)
Definition massBound (qt : nat) (e : R) : R := Cw (weightExp qt) + e + / 10.
