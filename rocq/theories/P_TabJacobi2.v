(** The Gauss-Jacobi (2,0) table passes the certified checks. *)
From Coq Require Import ZArith.
From Verif Require Import M_Tab M_TabJacobi2 P_QuadFix.
Lemma jacobi2_ok : tab_ok 2 1%Z 61 jacobi2Table = true.
Proof. vm_compute. reflexivity. Qed.
