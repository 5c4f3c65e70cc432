(** The Gauss-Legendre table passes the certified checks. *)
From Coq Require Import ZArith.
From Verif Require Import M_Tab M_TabGauss P_QuadFix.
Lemma gauss_ok : tab_ok 0 1%Z 61 gaussTable = true.
Proof. vm_compute. reflexivity. Qed.
