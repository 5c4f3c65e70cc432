(** Model of dune/geometry/generalvertexorder.hh. *)
From Coq Require Import NArith ZArith PeanoNat Bool List.
From Verif Require Import M_Type M_RefTopo.
Import ListNotations.

(** A write through the output iterator: position k of a vector; past the end is undefined. *)
Fixpoint store (out : list nat) (k v : nat) {struct out} : option (list nat) :=
  match out, k with
  | [], _ => None
  | _ :: out, O => Some (v :: out)
  | x :: out, S k => option_map (cons x) (store out k v)
  end.

Section Reduce.
(** an input iterator: dereference (None: not dereferencable), increment, comparison; the
    order of the ids *)
Variables (It A : Type) (deref : It -> option A) (next : It -> It) (eqb : It -> It -> bool) (ltb : A -> A -> bool).

(** std::count_if; [fuel] bounds the loop *)
Fixpoint count_if (fuel : nat) (p : A -> bool) (it e : It) : option nat :=
  if eqb it e then Some 0 else
  match fuel with
  | O => None
  | S fuel => obind (deref it) (fun v => option_map (fun n => if p v then S n else n) (count_if fuel p (next it) e))
  end.

(** generalvertexorder.hh:39-48: the loop of reduceOrder, the output iterator at position k.
    The count is stored without overflow of the index type. *)
Fixpoint reduceLoop (fuel rounds : nat) (b e it : It) (out : list nat) (k : nat) : option (list nat) :=
  if eqb it e then Some out else
  match rounds with
  | O => None
  | S rounds =>
      obind (deref it) (fun x =>
      obind (count_if fuel (fun v => ltb v x) b e) (fun c =>
      obind (store out k c) (fun out => reduceLoop fuel rounds b e (next it) out (S k))))
  end.
Definition reduceOrder (fuel : nat) (b e : It) (out : list nat) : option (list nat) := reduceLoop fuel fuel b e b out 0.
End Reduce.

(** reduceOrder on the range of all elements of a container *)
Definition reduceList {A} (ltb : A -> A -> bool) (fuel : nat) (l : list A) (out : list nat) : option (list nat) :=
  reduceOrder nat A (nth_error l) S Nat.eqb ltb fuel 0 (length l) out.

(** lines 67-73: the data of GeneralVertexOrder; [vo_addr] stands for the address of the object *)
Record VOrder := mkVOrder { vo_addr : nat; vo_dim : nat; vo_ref : RefElement; vo_type : GeometryType; vo_order : list nat }.

(** lines 96-101: the constructor; std::vector(n) is filled with zeros; [r] is what
    ReferenceElements::general delivers for the type *)
Definition vo_make {A} (ltb : A -> A -> bool) (fuel addr : nat) (t : GeometryType) (dim : nat) (r : RefElement) (ids : list A) : option VOrder :=
  option_map (mkVOrder addr dim r t) (reduceList ltb fuel ids (repeat 0 (re_size r dim))).

(** lines 141-193: the iterator.  vertex is a 64 bit size_t. *)
Record VIter := mkVIter { vi_addr : nat; vi_codim : nat; vi_sub : nat; vi_vertex : Z }.
Definition wrap64 (z : Z) : Z := (z mod 2 ^ 64)%Z.

Section Iterator.
Variable o : VOrder.
(** lines 108-109 and 115-118 *)
Definition vo_begin (codim sub : nat) : VIter := mkVIter (vo_addr o) codim sub 0.
Definition vo_end (codim sub : nat) : option VIter :=
  option_map (fun n => mkVIter (vo_addr o) codim sub (Z.of_nat n)) (re_size3 (vo_ref o) sub codim (vo_dim o)).
(** lines 156-163: dereference and elementAt.  The vertex number is passed on as an int, which
    is the same for the vertices of a reference element. *)
Definition vi_at (it : VIter) (vertex : Z) : option nat :=
  obind (re_subEntity (vo_ref o) (vi_sub it) (vi_codim it) (Z.to_nat vertex) (vo_dim o)) (fun v => nth_error (vo_order o) v).
Definition vi_dereference (it : VIter) : option nat := vi_at it (vi_vertex it).
Definition vi_elementAt (it : VIter) (n : Z) : option nat := vi_at it (wrap64 (vi_vertex it + n)).
(** lines 164-167 *)
Definition vi_equals (a b : VIter) : bool :=
  (vi_addr a =? vi_addr b) && (vi_codim a =? vi_codim b) && (vi_sub a =? vi_sub b) && (vi_vertex a =? vi_vertex b)%Z.
(** lines 168-170 *)
Definition vi_set (it : VIter) (v : Z) : VIter := mkVIter (vi_addr it) (vi_codim it) (vi_sub it) (wrap64 v).
Definition vi_increment (it : VIter) : VIter := vi_set it (vi_vertex it + 1).
Definition vi_decrement (it : VIter) : VIter := vi_set it (vi_vertex it - 1).
Definition vi_advance (it : VIter) (n : Z) : VIter := vi_set it (vi_vertex it + n).
(** lines 171-178; the assertion is active; the conversion to ptrdiff_t wraps *)
Definition toPtrdiff (z : Z) : Z := ((z + 2 ^ 63) mod 2 ^ 64 - 2 ^ 63)%Z.
Definition vi_distanceTo (a b : VIter) : option Z :=
  if (vi_addr a =? vi_addr b) && (vi_codim a =? vi_codim b) && (vi_sub a =? vi_sub b) then
    Some (if (vi_vertex a <? vi_vertex b)%Z then toPtrdiff (vi_vertex b - vi_vertex a) else (- toPtrdiff (vi_vertex a - vi_vertex b))%Z)
  else None.

(** std::vector::resize *)
Definition resize (l : list nat) (n : nat) : list nat := firstn n l ++ repeat 0 (n - length l).
(** lines 128-134: getReduced *)
Definition vo_getReduced (fuel codim sub : nat) (order : list nat) : option (list nat) :=
  obind (re_size3 (vo_ref o) sub codim (vo_dim o)) (fun n =>
  obind (vo_end codim sub) (fun e =>
  reduceOrder VIter nat vi_dereference vi_increment vi_equals Nat.ltb fuel (vo_begin codim sub) e (resize order n))).
End Iterator.
