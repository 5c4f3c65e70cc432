(** Model of the test programs of the Python layer: dune/python/test/geometrytype.py,
    refelement.py and test_quad.py, with the constructors and constants that
    python/dune/geometry/_geometry.cc gives to the module.  What is tested is a parameter of
    each program.

    Simplifications: numbers are [R] (so rounding is left out, and with it the difference
    between the loop over the points and the sum over the arrays); which exception ends a
    program is left out; whether two vectors differ is decided by their coordinates
    (dune-common, not part of the repository). *)
From Coq Require Import NArith ZArith PeanoNat Bool List Ascii String Reals.
From Verif Require Import M_Type M_TypeString M_RefGeo M_RefTopo M_QuadFactory M_Quadrature M_Container M_PyRules.
Import ListNotations.

(** How a program ends: [Some true] without an exception, [Some false] with one, [None] with
    undefined behaviour of a function called. *)
Definition Ending := option bool.
Definition andThen (a : Ending) (b : Ending) : Ending := match a with Some true => b | _ => a end.
Fixpoint forEach {A} (f : A -> Ending) (l : list A) : Ending :=
  match l with [] => Some true | a :: l' => andThen (f a) (forEach f l') end.

(** ** geometrytype.py *)
Section Types.
(** GeometryType(s) and str(t) *)
Variable parse : str -> Res GeometryType.
Variable text : GeometryType -> str.
(** assert GeometryType(s) == t *)
Definition pt_assert (s : str) (t : GeometryType) : Ending :=
  match parse s with Ok u => Some (gt_eqb u t) | Throw => Some false | M_TypeString.Undef => None end.
(** lines 7-8; _geometry.cc:27-34 *)
Definition pt_named : list GeometryType := [vertex; line; triangle; quadrilateral; tetrahedron; pyramid; prism; hexahedron].
(** lines 11-13, the body of the loop; _geometry.cc:22-24: simplex(d), cube(d) and none(d) *)
Definition pt_general (d : nat) : Ending :=
  andThen (pt_assert (text (simplex d)) (simplex d))
 (andThen (match cube_c (N.of_nat d) with Ok t => pt_assert (text t) t | _ => None end)
          (pt_assert (text (none d)) (none d))).
(** lines 16-18 and 21-23 *)
Definition pt_simplex (dt : nat * GeometryType) : Ending :=
  let d := dec (N.of_nat (fst dt)) in
  andThen (pt_assert (lit "simplex(" ++ d ++ lit ")") (snd dt)) (pt_assert (lit "general( 0, " ++ d ++ lit ")") (snd dt)).
Definition pt_cube (dt : nat * GeometryType) : Ending :=
  let d := dec (N.of_nat (fst dt)) in
  andThen (pt_assert (lit "cube(" ++ d ++ lit ")") (snd dt))
          (pt_assert (lit "general( " ++ dec (2 ^ N.of_nat (fst dt) - 1) ++ lit ", " ++ d ++ lit ")") (snd dt)).
Definition pt_simplices : list (nat * GeometryType) := [(0, vertex); (1, line); (2, triangle); (3, tetrahedron)].
Definition pt_cubes : list (nat * GeometryType) := [(0, vertex); (1, line); (2, quadrilateral); (3, hexahedron)].
(** the program with range(n) in line 10; n is 10 *)
Definition pt_main (n : nat) : Ending :=
  andThen (forEach (fun t => pt_assert (text t) t) pt_named)
 (andThen (forEach pt_general (seq 0 n))
 (andThen (forEach pt_simplex pt_simplices) (forEach pt_cube pt_cubes))).
End Types.

(** ** refelement.py *)
(** The methods and properties of a Python reference element that the program uses. *)
Record PyRef := mkPyRef {
  pr_dimension : nat;
  pr_size : Z -> Py nat;
  pr_type : Z -> Z -> Py GeometryType;
  pr_types : Z -> Py (list GeometryType);
  pr_position : Z -> Z -> Py Vec;
  pr_positions : Z -> Py (list Vec);
  pr_normal : Z -> Py Vec;
  pr_normals : Py (list Vec) }.
(** dune/python/geometry/referenceelements.hh:94-233 *)
Definition pyRef (id : N) (dim : nat) (r : RefElement) : PyRef :=
  mkPyRef dim (py_size dim r) (py_type dim r) (py_types dim r) (py_position id dim r) (py_positions id dim r)
    (py_normal id dim r) (py_normals id dim r).
(** x == y for vectors of n numbers *)
Definition vec_eqb (n : nat) (x y : Vec) : bool := forallb (fun k => if Req_EM_T (x k) (y k) then true else false) (seq 0 n).
(** an expression that is evaluated, then a statement that uses its value *)
Definition eval {A} (e : Py A) (f : A -> Ending) : Ending :=
  match e with PyReturn a => f a | PyValueError => Some false | PyUndefined => None end.
(** lines 9-14, 17-22, 25-30: the tuple has the size, and its elements are those of the method *)
Definition pr_tuple {A} (eqb : A -> A -> bool) (tuple : Py (list A)) (size : Py nat) (get : Z -> Py A) : Ending :=
  eval tuple (fun l => eval size (fun n =>
    if negb (Nat.eqb (List.length l) n) then Some false
    else forEach (fun ia => eval (get (Z.of_nat (fst ia))) (fun a => Some (eqb (snd ia) a))) (combine (seq 0 (List.length l)) l))).
(** lines 7-30 test(r) *)
Definition pr_test (r : PyRef) : Ending :=
  let codims := map Z.of_nat (seq 0 (S (pr_dimension r))) in
  andThen (forEach (fun c => pr_tuple gt_eqb (pr_types r c) (pr_size r c) (fun i => pr_type r i c)) codims)
 (andThen (forEach (fun c => pr_tuple (vec_eqb (pr_dimension r)) (pr_positions r c) (pr_size r c) (fun i => pr_position r i c)) codims)
          (if Nat.ltb 0 (pr_dimension r)
           then pr_tuple (vec_eqb (pr_dimension r)) (pr_normals r) (pr_size r 1) (pr_normal r)
           else Some true)).
Section Elements.
(** referenceElement(t), with the state of the module *)
Context {St : Type}.
Variable ask : St -> GeometryType -> St * Call (option PyRef).
(** lines 32-39 *)
Fixpoint pr_elements (l : list GeometryType) (s : St) (k : St -> Ending) : Ending :=
  match l with
  | [] => k s
  | t :: l' => match ask s t with
      | (s', Ret (Some r)) => andThen (pr_test r) (pr_elements l' s' k)
      | (_, Ret None) => Some false   (* None has no attribute dimension *)
      | (_, Raise _) => Some false
      | (_, M_PyRules.Undef) => None
      end
  end.
(** lines 41-43 *)
Fixpoint pr_nones (l : list nat) (s : St) : Ending :=
  match l with
  | [] => Some true
  | d :: l' => match ask s (none d) with
      | (s', Ret None) => pr_nones l' s'
      | (_, Ret (Some _)) => Some false
      | (_, Raise _) => Some false
      | (_, M_PyRules.Undef) => None
      end
  end.
Definition pr_main (s : St) : Ending := pr_elements pt_named s (pr_nones [0; 1; 2; 3]).
End Elements.
(** the object that wraps a reference element of the module of a dimension *)
Definition pyObject (dim : nat) (e : RefEl) : option PyRef :=
  obind (container dim) (fun c => obind e (fun a => obind (impl c e) (fun r => Some (pyRef (N.of_nat a) dim r)))).
(** _referenceelements.py:28-40 *)
Definition askElement (objHash : nat -> Z) (load : nat -> bool) (d : list (Key * option RefEl)) (t : GeometryType)
  : list (Key * option RefEl) * Call (option PyRef) :=
  match referenceElement objHash load d (OType t) with
  | (d', Ret None) => (d', Ret None)
  | (d', Ret (Some e)) => (d', match pyObject (gt_dim t) e with Some r => Ret (Some r) | None => M_PyRules.Undef end)
  | (d', Raise x) => (d', Raise x)
  | (d', M_PyRules.Undef) => (d', M_PyRules.Undef)
  end.

(** ** test_quad.py *)
Local Open Scope R_scope.
(** lines 7-10 monomial(p), for a point with d coordinates; x**0 is 1 *)
Definition qy_monomial (d p : nat) (x : Vec) : R := fold_left (fun s i => s + x i ^ p) (seq 0 d) 0.
(** lines 12-40 *)
Inductive QShape := QSLine | QSTriangle | QSQuadrilateral | QSTetrahedron | QSPyramid | QSPrism | QSHexahedron.
Definition qy_shapes : list QShape := [QSLine; QSTriangle; QSQuadrilateral; QSTetrahedron; QSPyramid; QSPrism; QSHexahedron].
Definition qy_type (s : QShape) : GeometryType :=
  match s with QSLine => line | QSTriangle => triangle | QSQuadrilateral => quadrilateral | QSTetrahedron => tetrahedron
  | QSPyramid => pyramid | QSPrism => prism | QSHexahedron => hexahedron end.
Definition qy_result (p : nat) (s : QShape) : option R :=
  match p with
  | 0%nat => Some (match s with QSLine => 1 | QSTriangle => 2 * 1 / 2 | QSQuadrilateral => 2 * 1 | QSTetrahedron => 3 * 1 / 6
                   | QSPyramid => 3 * 1 / 3 | QSPrism => 3 * (5 / 10) | QSHexahedron => 3 * 1 end)
  | 3%nat => match s with QSLine => Some (1 / 4) | QSTriangle => Some (1 / 10) | QSQuadrilateral => Some (1 / 2)
             | QSTetrahedron => Some (1 / 40) | QSPyramid => None | QSPrism => None | QSHexahedron => Some (3 / 4) end
  | 4%nat => match s with QSLine => Some (1 / 5) | QSTriangle => Some (1 / 15) | QSQuadrilateral => Some (2 / 5)
             | QSTetrahedron => Some (1 / 70) | QSPyramid => None | QSPrism => None | QSHexahedron => Some (3 / 5) end
  | _ => None
  end.
(** lines 47-48 *)
Definition qy_value1 (d p : nat) (pts : list QPoint) : R :=
  fold_left (fun v q => v + qy_monomial d p (fst q) * snd q) pts 0.
(** lines 49-50: the arrays of get(), element by element *)
Definition qy_value2 (d p : nat) (pts : list QPoint) : option R :=
  option_map (fun pw =>
    let mem := memory d pts in
    fold_left (fun v c => v + qy_monomial d p (column mem d (fst pw) c)
                              * match nd_get mem (snd pw) [c] with Some x => x | None => 0 end) (seq 0 (List.length pts)) 0)
    (quadratureToNumpy d pts).
(** lines 46-54, the body of the loops *)
Definition qy_check (p : nat) (s : QShape) (r1 r2 : Rule) : Ending :=
  let d := gt_dim (qy_type s) in
  let value1 := qy_value1 d p (ru_points r1) in
  match qy_value2 d p (ru_points r2) with
  | None => None
  | Some value2 =>
      if Rltb (Rabs (value1 - value2)) (1 / IZR (10 ^ 14))
      then match qy_result p s with
           | Some x => Some (Rltb (Rabs (x - value1)) (1 / IZR (10 ^ 12)))
           | None => Some true
           end
      else Some false
  end.
Section Rules.
(** quadratureRule(t, order), with the state of the module *)
Context {St : Type}.
Variable ask : St -> GeometryType -> Z -> St * Call Rule.
(** a call of rules(t) *)
Definition qy_ask (s : St) (t : GeometryType) (p : nat) (k : St -> Rule -> Ending) : Ending :=
  match ask s t (Z.of_nat p) with
  | (s', Ret r) => k s' r
  | (_, Raise _) => Some false
  | (_, M_PyRules.Undef) => None
  end.
(** lines 42-54 *)
Fixpoint qy_loop (l : list (nat * QShape)) (s : St) : Ending :=
  match l with
  | [] => Some true
  | (p, sh) :: l' =>
      qy_ask s (qy_type sh) p (fun s r1 => qy_ask s (qy_type sh) p (fun s r2 => andThen (qy_check p sh r1 r2) (qy_loop l' s)))
  end.
Definition qy_main (s : St) : Ending := qy_loop (list_prod [0; 3; 4]%nat qy_shapes) s.
End Rules.
(** __init__.py:16-31 *)
Definition askRule (hpair : Z -> Z -> Z) (hnum : Z -> Z) (objHash : nat -> Z) (load : nat -> bool)
  (lapack : Z -> nat -> option (list (R * R))) (s : RState) (t : GeometryType) (p : Z) : RState * Call Rule :=
  match quadratureRule hpair hnum objHash load lapack s (OType t) (OInt p) with
  | (s', Ret v) => (s', Ret (snd v))
  | (s', Raise x) => (s', Raise x)
  | (s', M_PyRules.Undef) => (s', M_PyRules.Undef)
  end.
