(** The Gauss-Jacobi (1,0) table passes the certified checks. *)
From Coq Require Import ZArith.
From Verif Require Import M_Tab M_TabJacobi1 P_QuadFix.
Lemma jacobi1_ok : tab_ok 1 1%Z 61 jacobi1Table = true.
Proof. vm_compute. reflexivity. Qed.
