(** Vocabulary for the statements about quadrature requests. *)
From Coq Require Import NArith ZArith PeanoNat Bool List.
From Verif Require Import M_Type M_TypeIndex M_QuadFactory.
Local Open Scope Z_scope.

(** Requests that the documentation allows: a type of the right dimension (none types with id
    zero, as GeometryTypes::none builds them), an enumerated quadrature type and an order not
    above maxOrder; for points every order. *)
Definition valid (r : Req) : Prop :=
  (rq_dim r < 31)%nat
  /\ gt_dim (rq_t r) = rq_dim r
  /\ (gt_id (rq_t r) < 2 ^ N.of_nat (rq_dim r))%N
  /\ (gt_none (rq_t r) = true -> gt_id (rq_t r) = 0%N)
  /\ (rq_qt r < qtSize)%nat
  /\ (rq_dim r = 0%nat
      \/ exists m, maxOrder (rq_dim r) (rq_t r) (rq_qt r) = Some m /\ 0 <= rq_p r <= m).

(** Two requests are for the same rule: same dimension, quadrature type, equal geometry types
    and, except for points, the same order. *)
Definition same_rule (r r' : Req) : Prop :=
  rq_dim r = rq_dim r' /\ rq_qt r = rq_qt r' /\ gt_eqb (rq_t r) (rq_t r') = true
  /\ (rq_dim r = 0%nat \/ rq_p r = rq_p r').
