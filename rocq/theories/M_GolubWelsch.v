(** Model of jacobiNquadrature.hh:125-171, jacobiNodesWeights: the nodes and weights for the
    weight function (1-x)^alpha from the eigenvalues and eigenvectors of the Jacobi matrix.

    Simplifications: [ct] and double are [R]; the products of [int] do not overflow (orders are
    at most 127, alpha is a dimension).  DynamicMatrixHelp::eigenValuesNonSym (dune-common,
    LAPACK dgeev) is the parameter [eig]: the real and the imaginary parts of the eigenvalues and
    the vectors; [None] if it throws. *)
From Coq Require Import ZArith PeanoNat List Reals.
From Verif Require Import M_RefGeo M_Matrix.
Import ListNotations.
Local Open Scope R_scope.

(** line 132: degree/2 + 1, division of int *)
Definition gw_n (degree : Z) : nat := Z.to_nat (Z.quot degree 2 + 1).
(** lines 139-140 *)
Definition gw_a (alpha i : nat) : R := INR (2 * i * (i + alpha)) / INR ((2 * i + alpha - 1) * (2 * i + alpha)).
Definition gw_c (alpha i : nat) : R := INR (2 * i * (i + alpha)) / INR ((2 * i + alpha + 1) * (2 * i + alpha)).
(** lines 134-145 *)
Definition gw_matrix (n alpha : nat) : Mat :=
  let J : Mat := fun _ _ => 0 in
  let J := mupd J 0 0 (- INR alpha / INR (2 + alpha)) in
  forR 1 n (fun i J =>
    let J := mupd J i i (- INR (alpha * alpha) / INR ((2 * i + alpha + 2) * (2 * i + alpha))) in
    let J := mupd J i (i - 1) (sqrt (gw_a alpha i * gw_c alpha i)) in
    mupd J (i - 1) i (J i (i - 1)%nat)) J.

(** eigenvalues (real and imaginary parts) and eigenvectors *)
Record Eigen := mkEigen { eg_re : nat -> R; eg_im : nat -> R; eg_vec : nat -> Vec }.

Section GolubWelsch.
Variable eig : nat -> Mat -> option Eigen.

(** lines 127-171.  A negative degree is not a size of a matrix. *)
Definition jacobiNodesWeights (degree : Z) (alpha : nat) : option (list (R * R)) :=
  if (degree <? 0)%Z then None else
  let n := gw_n degree in
  match eig n (gw_matrix n alpha) with
  | None => None
  | Some e =>
      let mu := 1 / INR (alpha + 1) in
      Some (map (fun i => (1 / 2 * eg_re e i + 1 / 2, mu * eg_vec e i 0%nat * eg_vec e i 0%nat)) (seq 0 n))
  end.
End GolubWelsch.
