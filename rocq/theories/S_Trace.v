(** Vocabulary for traces: the geometry of a subentity of a multilinear geometry, built as a
    user of the code would, from type(i,c) and the corners named by subEntities(i,c,dim). *)
From Coq Require Import NArith PeanoNat List Reals.
From Verif Require Import M_Type M_RefTopo M_RefGeo M_MultiLinear S_MultiLinear.
Import ListNotations.
Local Open Scope R_scope.

Definition sub_geometry (mydim : nat) (g : MLGeo) (i c : nat) (g' : MLGeo) : Prop :=
  (c <= mydim)%nat /\ (i < re_size (ml_ref g) c)%nat /\ ml_wf (mydim - c) g' /\
  exists t vs, re_type (ml_ref g) i c = Some t /\ gt_eqb (GT2 (ml_id g') (mydim - c)) t = true /\
    re_subEntities (ml_ref g) i c mydim = Some vs /\
    ml_corners g' = map (fun v => nth v (ml_corners g) vzero) vs.
