(** The right Gauss-Radau table passes the certified checks. *)
From Coq Require Import ZArith.
From Verif Require Import M_Tab M_TabRadauRight P_QuadFix.
Lemma radauRight_ok : tab_ok 0 2%Z 30 radauRightTable = true.
Proof. vm_compute. reflexivity. Qed.
