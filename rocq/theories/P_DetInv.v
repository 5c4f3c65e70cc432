(** A square matrix with non-zero determinant has an inverse; obtained from mathcomp. *)
From Coq Require Import Reals.
From mathcomp Require Import all_ssreflect all_algebra.
From Verif Require Import P_Rfield M_RefGeo S_Matrix P_Det P_MxBridge.
Set Implicit Arguments.
Unset Strict Implicit.
Unset Printing Implicit Defensive.
Import GRing.Theory.
Delimit Scope R_scope with RR.

Lemma det_inverse n A : detR n A <> 0%RR -> exists B, meq n n (mmul n A B) mone.
Proof.
  case: n => [|n] H; first by exists A => i j /ltP.
  exists (fun i j => invmx (mxR n.+1 n.+1 A) (inord i) (inord j)); apply/mxR_eq.
  have -> : mxR n.+1 n.+1 (mmul n.+1 A (fun i j => invmx (mxR n.+1 n.+1 A) (inord i) (inord j)))
          = (mxR n.+1 n.+1 A *m invmx (mxR n.+1 n.+1 A))%R.
  { rewrite mxR_mul; congr (_ *m _)%R; apply/matrixP => i j; by rewrite !mxE !inord_val. }
  rewrite mulmxV ?mxR_one // unitmxE unitfE. by apply/eqP.
Qed.
