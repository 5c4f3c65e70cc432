(** What is assumed of the eigenvalue solver behind the rules of jacobiNquadrature.hh. *)
From Coq Require Import PeanoNat List Reals.
From Verif Require Import M_RefGeo M_GolubWelsch S_Matrix P_Det.
Local Open Scope R_scope.

Fixpoint rprod (n : nat) (f : nat -> R) : R := match n with O => 1 | S n' => rprod n' f * f n' end.

(** The contract of LAPACK's dgeev for a real n x n matrix: every entry of the result is a
    (possibly complex) eigenvalue; the vector of a real eigenvalue is an eigenvector of length
    one; the eigenvalues are repeated according to their multiplicity as roots of the
    characteristic polynomial (stated for the case that all of them are real). *)
Record eigenvectors_of (n : nat) (J : Mat) (e : Eigen) : Prop := {
  ev_value : forall i, (i < n)%nat -> exists u w : Vec,
      (exists k, (k < n)%nat /\ (u k <> 0 \/ w k <> 0))
      /\ (forall k, (k < n)%nat -> mvec n J u k = eg_re e i * u k - eg_im e i * w k)
      /\ (forall k, (k < n)%nat -> mvec n J w k = eg_re e i * w k + eg_im e i * u k);
  ev_vector : forall i, (i < n)%nat -> eg_im e i = 0 ->
      (forall k, (k < n)%nat -> mvec n J (eg_vec e i) k = eg_re e i * eg_vec e i k)
      /\ rsum n (fun k => eg_vec e i k * eg_vec e i k) = 1;
  ev_multiplicity : (forall i, (i < n)%nat -> eg_im e i = 0) ->
      forall x, detR n (fun i j => x * mone i j - J i j) = rprod n (fun i => x - eg_re e i)
}.
Definition solver_ok (eig : nat -> Mat -> option Eigen) : Prop :=
  forall n J e, eig n J = Some e -> eigenvectors_of n J e.

(** sum of weight * f(node) *)
Definition wsum (data : list (R * R)) (f : R -> R) : R := fold_right (fun xw s => snd xw * f (fst xw) + s) 0 data.
