(** Vocabulary for the rules of arbitrary dimension: quadrature sums, polynomials in several
    variables, and integrals over the reference elements. *)
From Coq Require Import NArith ZArith PeanoNat Bool List Reals.
From Coquelicot Require Import Coquelicot.
From Verif Require Import M_RefGeo M_Quadrature S_Topo S_RefGeo S_Quad1D.
Import ListNotations.
Local Open Scope R_scope.

(** sum of weight * f(position) *)
Fixpoint quad (pts : list QPoint) (f : Vec -> R) : R :=
  match pts with [] => 0 | q :: pts' => snd q * f (fst q) + quad pts' f end.

(** x_0^{e_0} ... x_{n-1}^{e_{n-1}} and its total degree *)
Fixpoint monomial (n : nat) (e : nat -> nat) (x : Vec) : R :=
  match n with O => 1 | S n' => monomial n' e x * x n' ^ e n' end.
Fixpoint degree (n : nat) (e : nat -> nat) : nat :=
  match n with O => O | S n' => (degree n' e + e n')%nat end.

(** A polynomial as a list of coefficients and exponents. *)
Definition MPoly : Type := list (R * (nat -> nat)).
Fixpoint peval (n : nat) (P : MPoly) (x : Vec) : R :=
  match P with [] => 0 | (c, e) :: P' => c * monomial n e x + peval n P' x end.
Fixpoint pnorm (P : MPoly) : R :=
  match P with [] => 0 | (c, _) :: P' => Rabs c + pnorm P' end.
Definition pdegree_le (n : nat) (P : MPoly) (p : nat) : Prop :=
  forall c e, In (c, e) P -> (degree n e <= p)%nat.

(** The integral over the polytope with the weight function [omega alpha] in every direction
    of the construction; for [alpha = 0] it is [Iint] of S_RefGeo, the plain integral. *)
Fixpoint IintW (alpha : nat) (T : Topo) (f : Vec -> R) : R :=
  match T with
  | Pt => f (fun _ => 0)
  | Pri b => RInt (fun t => omega alpha t * IintW alpha b (fun y => f (fun k => if Nat.eqb k (tdim b) then t else y k))) 0 1
  | Pyr b => RInt (fun t => omega alpha t * ((1 - t) ^ tdim b
                 * IintW alpha b (fun y => f (fun k => if Nat.eqb k (tdim b) then t else (1 - t) * y k)))) 0 1
  end.

(** [pts] integrates the polynomials of degree at most [p] over [T] up to [err] times the sum
    of the absolute values of the coefficients. *)
Definition exactND (alpha : nat) (T : Topo) (p : nat) (err : R) (pts : list QPoint) : Prop :=
  forall P, pdegree_le (tdim T) P p ->
    Rabs (quad pts (peval (tdim T) P) - IintW alpha T (peval (tdim T) P)) <= err * pnorm P.

(** The exponent of the weight function that belongs to a quadrature type: GaussJacobi_1_0
    and GaussJacobi_2_0 integrate against [omega 1] and [omega 2]. *)
Definition weightExp (qt : nat) : nat := (match qt with 1 => 1 | 2 => 2 | _ => 0 end)%nat.

(** What is assumed of the rules computed with LAPACK (jacobiNquadrature.hh:127-170): for the
    exponent [alpha] they have enough points, in [0,1], nonnegative weights, and integrate
    (1-t)^a t^b against (1-t)^alpha up to [e] if a+b is at most twice the number of points
    minus one.  [fun _ _ => None], a build without LAPACK, satisfies this. *)
Definition lapackOk (e : R) (lapack : Z -> nat -> option (list (R * R))) : Prop :=
  forall p alpha data, lapack p alpha = Some data ->
    (p <= 2 * Z.of_nat (length data) - 1)%Z
    /\ (forall x w, In (x, w) data -> 0 <= x <= 1 /\ 0 <= w)
    /\ forall a b, (Z.of_nat (a + b) <= 2 * Z.of_nat (length data) - 1)%Z ->
         Rabs (fold_right (fun xw s => snd xw * ((1 - fst xw) ^ a * fst xw ^ b) + s) 0 data
               - RInt (fun t => (1 - t) ^ alpha * ((1 - t) ^ a * t ^ b)) 0 1) <= e.

(** The accuracy of the tables that a request of order [p] may use in any dimension: the
    digits of the prism, tetrahedron and 33 point triangle rules are the coarsest. *)
Definition tableErr (p : Z) (qt : nat) : R :=
  if Nat.eqb qt 0 || Nat.eqb qt 3 then
    if (p <=? 5)%Z then 5 / IZR (10 ^ 17) else if (p =? 12)%Z then 2 / IZR (10 ^ 15) else / IZR (10 ^ 20)
  else / IZR (10 ^ 20).
(** The integral over [0,1] of the weight function [omega alpha]. *)
Definition Cw (alpha : nat) : R := 2 ^ alpha / INR (S alpha).
(** The error of a rule that uses [d] factors of size [C] and accuracy [e]. *)
Definition errD (C e : R) (d : nat) : R := (C + e) ^ d - C ^ d.
