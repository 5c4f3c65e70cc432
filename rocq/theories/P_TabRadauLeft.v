(** The left Gauss-Radau table passes the certified checks. *)
From Coq Require Import ZArith.
From Verif Require Import M_Tab M_TabRadauLeft P_QuadFix.
Lemma radauLeft_ok : tab_ok 0 2%Z 30 radauLeftTable = true.
Proof. vm_compute. reflexivity. Qed.
