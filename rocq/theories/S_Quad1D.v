(** Vocabulary for the one dimensional rules: the quadrature sum of a table entry, the weight
    functions and polynomials. *)
From Coq Require Import ZArith QArith Reals List Qreals.
From Coquelicot Require Import Coquelicot.
From Verif Require Import M_Tab.
Import ListNotations.
Local Open Scope R_scope.

(** sum of weight * f(point) *)
Fixpoint qsum (data : list (Q * Q)) (f : R -> R) : R :=
  match data with
  | [] => 0
  | (x, w) :: data' => Q2R w * f (Q2R x) + qsum data' f
  end.

(** c_0 + c_1 y + c_2 y^2 + ... *)
Fixpoint poly (c : list R) (y : R) : R :=
  match c with [] => 0 | a :: c' => a + y * poly c' y end.
(** |c_0| + |c_1| + ... *)
Fixpoint norm1 (c : list R) : R :=
  match c with [] => 0 | a :: c' => Rabs a + norm1 c' end.

(** The weight function of the tables: 1 for Gauss-Legendre, Gauss-Lobatto and Gauss-Radau,
    2(1-x) and 4(1-x)^2 for the two Gauss-Jacobi tables: (1-t)^alpha on [-1,1] moved to
    [0,1]. *)
Definition omega (alpha : nat) (x : R) : R := (2 * (1 - x)) ^ alpha.

(** [data] integrates every polynomial of degree at most [d] against [omega alpha], up to
    [eps] times the sum of the absolute values of the coefficients. *)
Definition exact1D (alpha : nat) (d : nat) (eps : R) (data : list (Q * Q)) : Prop :=
  forall c, (length c <= S d)%nat ->
    Rabs (qsum data (poly c) - RInt (fun x => omega alpha x * poly c x) 0 1) <= eps * norm1 c.

(** points in the unit interval, positive weights *)
Definition inside (data : list (Q * Q)) : Prop :=
  forall x w, In (x, w) data -> 0 <= Q2R x <= 1 /\ 0 < Q2R w.

(** A table: it is defined exactly for the orders 0 to [hi] (otherwise the [default] throws), the
    entry for order [p] delivers at least [p] and exactly 2n-[gap] for n points, all points are
    in the unit interval and all weights positive, and it integrates all polynomials up to the
    delivered order. *)
Definition tableCorrect (alpha : nat) (gap hi : Z) (eps : R) (tab : list Entry) : Prop :=
  forall p, ((exists e, switchOn tab p = Some e) <-> (0 <= p <= hi)%Z)
  /\ forall e, switchOn tab p = Some e ->
     (p <= en_order e)%Z /\ (en_order e = 2 * Z.of_nat (length (en_data e)) - gap)%Z
     /\ inside (en_data e) /\ exact1D alpha (Z.to_nat (en_order e)) eps (en_data e).
(** one of the points of every entry is within [d] of [y] *)
Definition hasNode (d y : R) (tab : list Entry) : Prop :=
  forall p e, switchOn tab p = Some e -> exists x w, In (x, w) (en_data e) /\ Rabs (Q2R x - y) <= d.
