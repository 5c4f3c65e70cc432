(** The Gauss-Lobatto table passes the certified checks. *)
From Coq Require Import ZArith.
From Verif Require Import M_Tab M_TabLobatto P_QuadFix.
Lemma lobatto_ok : tab_ok 0 3%Z 31 lobattoTable = true.
Proof. vm_compute. reflexivity. Qed.
