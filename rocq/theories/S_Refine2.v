(** The loops over the refinements and the elements they refine. *)
From Coq Require Import PeanoNat NArith List Reals.
From Verif Require Import M_Type M_RefGeo S_RefGeo M_Refine S_Refine.
Import ListNotations.

(** the result of a terminating run without undefined behaviour *)
Definition ret {A} (r : Run A) : option A := match r with Ret a => Some a | _ => None end.

(** for (it = vBegin(n); it != vEnd(n); ++it), with nVertices(n) rounds; likewise elements *)
Definition simplexVertices (dim n : nat) (st : nat -> SVert) : Prop :=
  visits (sv_increment dim) (fun s => sv_equals dim s (sx_vEnd n)) (sx_vBegin n) (sx_nVertices dim n) st.
Definition simplexElements (fuel dim n : nat) (st : nat -> SElem) : Prop :=
  visits (fun s => ret (se_increment fuel dim s)) (fun s => se_equals s (sx_eEnd dim n)) (sx_eBegin dim n) (sx_nElements dim n) st.
Definition cubeVertices (dim n : nat) (st : nat -> HIter) : Prop :=
  visits (fun s => Some (hi_increment s)) (fun s => hi_equals s (hc_vEnd dim n)) (hc_vBegin n) (hc_nVertices dim n) st.
Definition cubeElements (dim n : nat) (st : nat -> HIter) : Prop :=
  visits (fun s => Some (hi_increment s)) (fun s => hi_equals s (hc_eEnd dim n)) (hc_eBegin n) (hc_nElements dim n) st.
Definition triangVertices (dim : nat) (t : Triang) (n : nat) (st : nat -> TVert) : Prop :=
  visits (tv_increment dim) (fun s => tv_equals dim s (tv_make t n true)) (tv_make t n false) (tr_nVertices dim t n) st.
Definition triangElements (fuel dim : nat) (t : Triang) (n : nat) (st : nat -> TElem) : Prop :=
  visits (fun s => ret (te_increment dim fuel s)) (fun s => te_equals s (te_make dim t n true)) (te_make dim t n false) (tr_nElements dim t n) st.

(** the three triangulations with the topology id of the element they triangulate *)
Inductive CoarseShape : nat -> Triang -> N -> Prop :=
| cs_cube : forall dim, 0 < dim < 256 -> CoarseShape dim (tr_cube dim) (gt_id (cube dim))
| cs_prism : CoarseShape 3 tr_prism (gt_id prism)
| cs_pyramid : CoarseShape 3 tr_pyramid (gt_id pyramid).
