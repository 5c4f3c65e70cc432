(** Model of the test program of the reference elements, dune/geometry/test/test-referenceelements.cc
    (whole file).

    Simplifications: printing is left out; an error counter [int] is a [nat]; an access outside
    of an array or an uninitialised read is [None].  Left out of [main]: the tests of the default
    constructed elements (116-121: comparison operators and hash), of volume() (C21), of checkInside
    (C23), and the calls geometry<0>(0).corner(0) whose result is not looked at. *)
From Coq Require Import NArith PeanoNat Bool List.
From Verif Require Import M_Type M_RefTopo M_Container.
Import ListNotations.

(** test-referenceelements.cc:16-17: the macros test and testcmp add one error. *)
Definition tst (b : bool) : nat := if b then 0 else 1.

(** a sequence of tests: the errors are added up, undefined behaviour of one is that of the whole *)
Fixpoint osum (l : list (option nat)) : option nat :=
  match l with
  | [] => Some 0
  | o :: r => obind o (fun a => obind (osum r) (fun b => Some (a + b)))
  end.

(** test-referenceelements.cc:32-73: the body of the three loops.  The range is the list [l]; its
    begin and end iterators are pointers, [end-it] and size() are both the length of [l]. *)
Definition checkRange (r : RefElement) (codim i c : nat) : option nat :=
  obind (re_subEntities r i codim c) (fun l =>
  obind (re_size3 r i codim c) (fun s =>
  (* 37-38 *)
  let e1 := tst (s =? length l) + tst (s =? length l) in
  (* 42-43 *)
  let e2 := if c <? codim then tst (s =? 0) else 0 in
  (* 47-48 *)
  let e3 := if c =? codim then tst (s =? 1) else 0 in
  (* 52-53 *)
  let e4 := if codim <? c then tst (1 <? s) else 0 in
  (* 56-60 *)
  obind (osum (map (fun j => obind (nth_error l j) (fun v =>
                             obind (re_subEntity r i codim j c) (fun w => Some (tst (v =? w)))))
                   (seq 0 (length l)))) (fun e5 =>
  (* 63-64 *)
  obind (osum (map (fun j => obind (re_contains r i codim c j) (fun b => Some (tst b))) l)) (fun e6 =>
  (* 67-69 *)
  obind (fill_flags (repeat false (re_size r c)) l) (fun containedSubEntities =>
  (* 70-71 *)
  obind (osum (map (fun j => obind (nth_error containedSubEntities j) (fun a =>
                             obind (re_contains r i codim c j) (fun b => Some (tst (Bool.eqb a b)))))
                   (seq 0 (re_size r c)))) (fun e7 =>
  (* 74: [it] was incremented size() times *)
  Some (e1 + e2 + e3 + e4 + e5 + e6 + e7))))))).

(** test-referenceelements.cc:22-79 checkSubEntities *)
Definition checkSubEntities (dim : nat) (r : RefElement) : option nat :=
  osum (map (fun codim =>
    osum (map (fun i =>
      osum (map (fun c => checkRange r codim i c) (seq 0 (S dim))))
      (seq 0 (re_size r codim))))
    (seq 0 (S dim))).

(** The single tests of main: size(c), size(i,c,cc), subEntity(i,c,ii,cc), type(i,c).isXXX(). *)
Definition t_size (r : RefElement) (c n : nat) : option nat := Some (tst (re_size r c =? n)).
Definition t_size3 (r : RefElement) (i c cc n : nat) : option nat :=
  obind (re_size3 r i c cc) (fun s => Some (tst (s =? n))).
Definition t_sub (r : RefElement) (i c ii cc n : nat) : option nat :=
  obind (re_subEntity r i c ii cc) (fun s => Some (tst (s =? n))).
Definition t_type (r : RefElement) (i c : nat) (is : GeometryType -> bool) : option nat :=
  obind (re_type r i c) (fun t => Some (tst (is t))).
(** for (int i=0; i<re.size(c); i++) { ... } *)
Definition t_loop (r : RefElement) (c : nat) (body : nat -> list (option nat)) : option nat :=
  osum (flat_map body (seq 0 (re_size r c))).

(** test-referenceelements.cc:112-138 *)
Definition testLine (r : RefElement) : option nat := osum [
  t_size r 0 1; t_size r 1 2;
  t_size3 r 0 0 0 1; t_size3 r 0 0 1 2; t_size3 r 0 1 1 1; t_size3 r 1 1 1 1;
  t_type r 0 0 isLine; t_type r 0 1 isVertex; t_type r 1 1 isVertex;
  checkSubEntities 1 r].

(** test-referenceelements.cc:148-212 *)
Definition testTriangle (r : RefElement) : option nat := osum [
  t_size r 0 1; t_size r 1 3; t_size r 2 3;
  t_size3 r 0 0 0 1; t_size3 r 0 0 1 3; t_size3 r 0 0 2 3;
  t_size3 r 0 1 1 1; t_size3 r 0 1 2 2; t_size3 r 1 1 1 1; t_size3 r 1 1 2 2; t_size3 r 2 1 1 1; t_size3 r 2 1 2 2;
  t_size3 r 0 2 2 1; t_size3 r 1 2 2 1; t_size3 r 2 2 2 1;
  t_sub r 0 0 0 0 0; t_sub r 0 0 0 1 0; t_sub r 0 0 1 1 1; t_sub r 0 0 2 1 2;
  t_sub r 0 0 0 2 0; t_sub r 0 0 1 2 1; t_sub r 0 0 2 2 2;
  t_sub r 0 1 0 1 0; t_sub r 1 1 0 1 1; t_sub r 2 1 0 1 2;
  t_sub r 0 1 0 2 0; t_sub r 0 1 1 2 1; t_sub r 1 1 0 2 0; t_sub r 1 1 1 2 2; t_sub r 2 1 0 2 1; t_sub r 2 1 1 2 2;
  t_sub r 0 2 0 2 0; t_sub r 1 2 0 2 1; t_sub r 2 2 0 2 2;
  t_type r 0 0 isTriangle;
  t_type r 0 1 isLine; t_type r 1 1 isLine; t_type r 2 1 isLine;
  t_type r 0 2 isVertex; t_type r 1 2 isVertex; t_type r 2 2 isVertex;
  checkSubEntities 2 r].

(** test-referenceelements.cc:222-290 *)
Definition testQuad (r : RefElement) : option nat := osum [
  t_size r 0 1; t_size r 1 4; t_size r 2 4;
  t_size3 r 0 0 0 1; t_size3 r 0 0 1 4; t_size3 r 0 0 2 4;
  t_size3 r 0 1 1 1; t_size3 r 0 1 2 2; t_size3 r 1 1 1 1; t_size3 r 1 1 2 2;
  t_size3 r 2 1 1 1; t_size3 r 2 1 2 2; t_size3 r 3 1 1 1; t_size3 r 3 1 2 2;
  t_size3 r 0 2 2 1; t_size3 r 1 2 2 1; t_size3 r 2 2 2 1; t_size3 r 3 2 2 1;
  t_sub r 0 0 0 0 0; t_sub r 0 0 0 1 0; t_sub r 0 0 1 1 1; t_sub r 0 0 2 1 2; t_sub r 0 0 3 1 3;
  t_sub r 0 0 0 2 0; t_sub r 0 0 1 2 1; t_sub r 0 0 2 2 2; t_sub r 0 0 3 2 3;
  t_sub r 0 1 0 1 0; t_sub r 1 1 0 1 1; t_sub r 2 1 0 1 2; t_sub r 3 1 0 1 3;
  t_sub r 0 1 0 2 0; t_sub r 0 1 1 2 2; t_sub r 1 1 0 2 1; t_sub r 1 1 1 2 3;
  t_sub r 2 1 0 2 0; t_sub r 2 1 1 2 1; t_sub r 3 1 0 2 2; t_sub r 3 1 1 2 3;
  t_sub r 0 2 0 2 0; t_sub r 1 2 0 2 1; t_sub r 2 2 0 2 2; t_sub r 3 2 0 2 3;
  t_type r 0 0 isQuadrilateral;
  t_type r 0 1 isLine; t_type r 1 1 isLine; t_type r 2 1 isLine; t_type r 3 1 isLine;
  t_type r 0 2 isVertex; t_type r 1 2 isVertex; t_type r 2 2 isVertex; t_type r 3 2 isVertex;
  checkSubEntities 2 r].

(** test-referenceelements.cc:300-363 *)
Definition testTetra (r : RefElement) : option nat := osum [
  t_size r 0 1; t_size r 1 4; t_size r 2 6; t_size r 3 4;
  t_size3 r 0 0 0 1; t_size3 r 0 0 1 4; t_size3 r 0 0 2 6; t_size3 r 0 0 3 4;
  t_loop r 1 (fun i => [t_size3 r i 1 1 1; t_size3 r i 1 2 3; t_size3 r i 1 3 3]);
  t_loop r 2 (fun i => [t_size3 r i 2 2 1; t_size3 r i 2 3 2]);
  t_loop r 3 (fun i => [t_size3 r i 3 3 1]);
  t_type r 0 0 isTetrahedron;
  t_loop r 1 (fun i => [t_type r i 1 isTriangle]);
  t_loop r 2 (fun i => [t_type r i 2 isLine]);
  t_loop r 3 (fun i => [t_type r i 3 isVertex]);
  checkSubEntities 3 r].

(** test-referenceelements.cc:373-430 *)
Definition testPyramid (r : RefElement) : option nat := osum [
  t_size r 0 1; t_size r 1 5; t_size r 2 8; t_size r 3 5;
  t_size3 r 0 0 0 1; t_size3 r 0 0 1 5; t_size3 r 0 0 2 8; t_size3 r 0 0 3 5;
  t_size3 r 0 1 1 1; t_size3 r 0 1 2 4; t_size3 r 0 1 3 4;
  t_size3 r 1 1 1 1; t_size3 r 1 1 2 3; t_size3 r 1 1 3 3;
  t_size3 r 2 1 1 1; t_size3 r 2 1 2 3; t_size3 r 2 1 3 3;
  t_size3 r 3 1 1 1; t_size3 r 3 1 2 3; t_size3 r 3 1 3 3;
  t_size3 r 4 1 1 1; t_size3 r 4 1 2 3; t_size3 r 4 1 3 3;
  t_loop r 2 (fun i => [t_size3 r i 2 2 1; t_size3 r i 2 3 2]);
  t_loop r 3 (fun i => [t_size3 r i 3 3 1]);
  t_type r 0 0 isPyramidT;
  t_type r 0 1 isQuadrilateral; t_type r 1 1 isTriangle; t_type r 2 1 isTriangle;
  t_type r 3 1 isTriangle; t_type r 4 1 isTriangle;
  t_loop r 2 (fun i => [t_type r i 2 isLine]);
  t_loop r 3 (fun i => [t_type r i 3 isVertex]);
  checkSubEntities 3 r].

(** test-referenceelements.cc:440-499 *)
Definition testPrism (r : RefElement) : option nat := osum [
  t_size r 0 1; t_size r 1 5; t_size r 2 9; t_size r 3 6;
  t_size3 r 0 0 0 1; t_size3 r 0 0 1 5; t_size3 r 0 0 2 9; t_size3 r 0 0 3 6;
  t_size3 r 0 1 1 1; t_size3 r 0 1 2 4; t_size3 r 0 1 3 4;
  t_size3 r 1 1 1 1; t_size3 r 1 1 2 4; t_size3 r 1 1 3 4;
  t_size3 r 2 1 1 1; t_size3 r 2 1 2 4; t_size3 r 2 1 3 4;
  t_size3 r 3 1 1 1; t_size3 r 3 1 2 3; t_size3 r 3 1 3 3;
  t_size3 r 4 1 1 1; t_size3 r 4 1 2 3; t_size3 r 4 1 3 3;
  t_loop r 2 (fun i => [t_size3 r i 2 2 1; t_size3 r i 2 3 2]);
  t_loop r 3 (fun i => [t_size3 r i 3 3 1]);
  t_type r 0 0 isPrismT;
  t_type r 0 1 isQuadrilateral; t_type r 1 1 isQuadrilateral; t_type r 2 1 isQuadrilateral;
  t_type r 3 1 isTriangle; t_type r 4 1 isTriangle;
  t_loop r 2 (fun i => [t_type r i 2 isLine]);
  t_loop r 3 (fun i => [t_type r i 3 isVertex]);
  checkSubEntities 3 r].

(** test-referenceelements.cc:509-557 *)
Definition testHexa (r : RefElement) : option nat := osum [
  t_size r 0 1; t_size r 1 6; t_size r 2 12; t_size r 3 8;
  t_size3 r 0 0 0 1; t_size3 r 0 0 1 6; t_size3 r 0 0 2 12; t_size3 r 0 0 3 8;
  t_loop r 1 (fun i => [t_size3 r i 1 1 1; t_size3 r i 1 2 4; t_size3 r i 1 3 4]);
  t_loop r 2 (fun i => [t_size3 r i 2 2 1; t_size3 r i 2 3 2]);
  t_loop r 3 (fun i => [t_size3 r i 3 3 1]);
  t_type r 0 0 isHexahedron;
  t_loop r 1 (fun i => [t_type r i 1 isQuadrilateral]);
  t_loop r 2 (fun i => [t_type r i 2 isLine]);
  t_loop r 3 (fun i => [t_type r i 3 isVertex]);
  checkSubEntities 3 r].

(** test-referenceelements.cc:83-559: main, over the function that returns the reference element of
    a geometry type (ReferenceElements::general, referenceElement(type)): the error counter. *)
Definition mainErrors (general : GeometryType -> option RefElement) : option nat := osum [
  obind (general line) testLine;
  obind (general triangle) testTriangle;
  obind (general quadrilateral) testQuad;
  obind (general tetrahedron) testTetra;
  obind (general pyramid) testPyramid;
  obind (general prism) testPrism;
  obind (general hexahedron) testHexa].
(** test-referenceelements.cc:559: the exit code *)
Definition mainExit (general : GeometryType -> option RefElement) : option nat :=
  obind (mainErrors general) (fun errors => Some (if 0 <? errors then 1 else 0)).

(** the reference elements of the library *)
Definition library (t : GeometryType) : option RefElement :=
  obind (container (gt_dim t)) (fun c => obind (rc_general (gt_dim t) c t) (fun e => impl c e)).
