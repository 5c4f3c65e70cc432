(** Corner storages held by value or by reference (MultiLinearGeometryTraits::CornerStorage of
    multilineargeometry.hh:127-131, std::cref in lines 278, 294, 382, 462), and
    test-cornerstoragerefwrap.cc. *)
From Coq Require Import NArith PeanoNat Bool List Reals.
From Verif Require Import M_Type M_RefTopo M_RefGeo M_Matrix M_MultiLinear S_Matrix.
Import ListNotations.
Local Open Scope R_scope.

(** A geometry class: the data beside reference element and corners, the constructor
    (lines 239-243, 551-556) and the methods.  The corners are looked up at every call. *)
Record GClass := {
  gc_State : Type;
  gc_make : MLGeo -> option gc_State;
  gc_call : MLGeo -> gc_State -> Call -> option (Reply * gc_State) }.

Section Classes.
Variables (mydim cdim : nat) (tol : R) (jv : Vec) (jm jk j1 j2 : Mat) (fuel : nat).
(** MultiLinearGeometry, and CachedMultiLinearGeometry with uninitialised members [jit0], [d0] *)
Definition plain_class : GClass :=
  {| gc_State := unit; gc_make := fun _ => Some tt;
     gc_call := fun g _ q => option_map (fun r => (r, tt)) (ml_call mydim cdim tol jv jm jk j1 j2 fuel g q) |}.
Definition cached_class (jit0 : Mat) (d0 : R) : GClass :=
  {| gc_State := Cache; gc_make := fun g => cm_make mydim cdim tol jm jk g jit0 d0;
     gc_call := fun g c q => cm_call mydim cdim tol jv jm jk j1 j2 fuel g c q |}.
End Classes.

Section Storage.
Variables (mydim : nat) (C : GClass).

(** CornerStorage::Type: std::vector, or std::reference_wrapper<const std::vector> *)
Inductive Kind := ByValue | ByRef.
(** a geometry object: refElement_ and corners_ (lines 476-477), and the members of the class *)
Record Geo := { ge_id : N; ge_ref : RefElement; ge_corners : list Vec + nat; ge_state : gc_State C }.
(** the live vectors of corners and the live geometry objects *)
Record Mem := { m_store : nat -> option (list Vec); m_geo : nat -> option Geo }.

(** the vector behind corners_; [None] for a reference to a dead vector *)
Definition corners_of (m : Mem) (g : Geo) : option (list Vec) :=
  match ge_corners g with inl cs => Some cs | inr s => m_store m s end.
Definition view (g : Geo) (cs : list Vec) : MLGeo := {| ml_id := ge_id g; ml_ref := ge_ref g; ml_corners := cs |}.

Definition set_at {A} (f : nat -> A) (i : nat) (a : A) : nat -> A := fun j => if Nat.eqb j i then a else f j.
Fixpoint replace (i : nat) (v : Vec) (cs : list Vec) : option (list Vec) :=
  match i, cs with
  | _, [] => None
  | O, _ :: cs => Some (v :: cs)
  | S i, c :: cs => option_map (cons c) (replace i v cs)
  end.

Inductive Op :=
  | SNew (s : nat) (cs : list Vec)        (* a vector comes to life *)
  | SSet (s i : nat) (v : Vec)            (* corners[i] = v *)
  | SFree (s : nat)                       (* it goes out of scope *)
  | GMake (x : nat) (id : N) (s : nat)    (* x = Geometry{refElement, corners} *)
  | GCopy (x y : nat)                     (* x = y *)
  | GCall (x : nat) (q : Call)            (* a method *)
  | GCenter (x : nat).                    (* center(), lines 282 and 572 *)

(** Undefined behaviour is [None]; so is, for simplicity, every call on a geometry whose corners
    are dead, and creating a vector or writing to one out of range. *)
Definition exec (k : Kind) (m : Mem) (o : Op) : option (Mem * list Reply) :=
  match o with
  | SNew s cs =>
      match m_store m s with
      | Some _ => None
      | None => Some ({| m_store := set_at (m_store m) s (Some cs); m_geo := m_geo m |}, [])
      end
  | SSet s i v =>
      obind (m_store m s) (fun cs => obind (replace i v cs) (fun cs =>
      Some ({| m_store := set_at (m_store m) s (Some cs); m_geo := m_geo m |}, [])))
  | SFree s =>
      obind (m_store m s) (fun _ => Some ({| m_store := set_at (m_store m) s None; m_geo := m_geo m |}, []))
  | GMake x id s =>
      obind (m_store m s) (fun cs => obind (re_infos id mydim) (fun r =>
      obind (gc_make C {| ml_id := id; ml_ref := r; ml_corners := cs |}) (fun st =>
      Some ({| m_store := m_store m;
               m_geo := set_at (m_geo m) x (Some {| ge_id := id; ge_ref := r;
                          ge_corners := match k with ByValue => inl cs | ByRef => inr s end; ge_state := st |}) |}, []))))
  | GCopy x y =>
      obind (m_geo m y) (fun g => Some ({| m_store := m_store m; m_geo := set_at (m_geo m) x (Some g) |}, []))
  | GCall x q =>
      obind (m_geo m x) (fun g => obind (corners_of m g) (fun cs =>
      obind (gc_call C (view g cs) (ge_state g) q) (fun '(r, st) =>
      Some ({| m_store := m_store m;
               m_geo := set_at (m_geo m) x (Some {| ge_id := ge_id g; ge_ref := ge_ref g; ge_corners := ge_corners g; ge_state := st |}) |}, [r]))))
  | GCenter x =>
      obind (m_geo m x) (fun g => obind (corners_of m g) (fun cs =>
      obind (re_position (ge_id g) mydim (ge_ref g) 0 0) (fun p =>
      obind (gc_call C (view g cs) (ge_state g) (CGlobal p)) (fun '(r, st) =>
      Some ({| m_store := m_store m;
               m_geo := set_at (m_geo m) x (Some {| ge_id := ge_id g; ge_ref := ge_ref g; ge_corners := ge_corners g; ge_state := st |}) |}, [r])))))
  end.
Fixpoint run (k : Kind) (m : Mem) (os : list Op) : option (Mem * list Reply) :=
  match os with
  | [] => Some (m, [])
  | o :: os => obind (exec k m o) (fun '(m, r) => obind (run k m os) (fun '(m, rs) => Some (m, r ++ rs)))
  end.
Definition nothing : Mem := {| m_store := fun _ => None; m_geo := fun _ => None |}.
End Storage.
Arguments ge_id {C}. Arguments ge_ref {C}. Arguments ge_corners {C}. Arguments ge_state {C}.
Arguments m_store {C}. Arguments m_geo {C}.

(** ** test-cornerstoragerefwrap.cc *)

Definition vec2 (a b : R) : Vec := fun k => match k with O => a | 1%nat => b | _ => 0 end.
(** lines 44-57 kiteGeometry; the static vector is storage 0, created at the first call *)
Definition kiteCorners : list Vec := [vec2 0 (- (3/2)); vec2 1 0; vec2 (-1) 0; vec2 0 (1/2)].
(** lines 78-83 *)
Definition triangleCorners : list Vec := [vec2 (-1) 0; vec2 1 0; vec2 0 1].
(** lines 59-69 expectCenter *)
Definition expectCenter (eps : R) (actual expected : Vec) : bool :=
  Rltb (norm2 2 (fun k => actual k - expected k)) eps.
Definition sr_expected : list Vec := [vec2 0 (-1/4); vec2 0 (1/3); vec2 (-1/3) 0; vec2 0 (-1/4)].
(** lines 71-127 main: the operations ... *)
Definition sr_program : list Op :=
  [SNew 0 kiteCorners; GMake 0 3 0; GCenter 0;
   SNew 1 triangleCorners; GMake 0 0 1; GCenter 0;
   SSet 1 1 (vec2 0 (-1)); GCenter 0; SFree 1;
   GMake 0 3 0; GCenter 0].
(** ... and the verdict; [None] if the program is undefined *)
Fixpoint sr_verdict (eps : R) (rs : list Reply) (es : list Vec) : bool :=
  match rs, es with
  | [], [] => true
  | RVec v :: rs, e :: es => expectCenter eps v e && sr_verdict eps rs es
  | _, _ => false
  end.
Definition sr_main (C : GClass) (k : Kind) (eps : R) : option bool :=
  option_map (fun '(_, rs) => sr_verdict eps rs sr_expected) (run 2 C k (nothing C) sr_program).
