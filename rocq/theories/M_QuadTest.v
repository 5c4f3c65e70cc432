(** Model of the checks of the quadrature test program,
    dune/geometry/test/test-quadrature.cc.

    Simplifications: [ctype] is [R], so that sums, powers and the comparison with the tolerance
    are exact; [eps] is the parameter standing for std::numeric_limits<ctype>::epsilon().
    The int products of analyticalSolution are exact (they overflow from p = 1289 on for the
    pyramid).  The comparison of the structured bindings with the accessors (lines 120-128) and
    the messages are left out. *)
From Coq Require Import NArith ZArith PeanoNat Bool List Reals Factorial.
From Verif Require Import M_Type M_RefGeo M_QuadFactory M_Quadrature.
Import ListNotations.
Local Open Scope R_scope.

(** test-quadrature.cc:57-60 [exact *= p+k] for k = 1 .. dim *)
Fixpoint risingProduct (p dim : nat) : R :=
  match dim with O => 1 | S d => risingProduct p d * INR (p + dim) end.

(** test-quadrature.cc:43-98 analyticalSolution<ctype,dim>(t,p,direction); [None] is the
    NotImplemented exception *)
Fixpoint analyticalSolution (dim : nat) (t : GeometryType) (p direction : nat) : option R :=
  if isCube t then Some (1 / INR (p + 1))
  else if isSimplex t then Some (1 / risingProduct p dim)
  else if isPrismT t then
    match dim with
    | O => Some (1 / (INR (fact 0) * INR (p + 1)))
    | S pdim =>
        if Nat.ltb direction pdim then analyticalSolution pdim (simplex pdim) p direction
        else Some (1 / (INR (fact pdim) * INR (p + 1)))
    end
  else if isPyramidT t then
    match direction with
    | 0%nat | 1%nat => Some (1 / INR ((p + 3) * (p + 1)))
    | 2%nat => Some (2 / INR ((p + 1) * (p + 2) * (p + 3)))
    | _ => Some 0
    end
  else None.

(** test-quadrature.cc:109-118: the integrals of x_d^p *)
Definition powerSums (p : nat) (pts : list QPoint) : Vec :=
  fold_left (fun integral q => fun d => integral d + snd q * fst q d ^ p) pts (fun _ => 0).

(** test-quadrature.cc:135 *)
Definition relativeError (integral exact : R) : R :=
  Rabs (integral - exact) / (Rabs integral + Rabs exact).
(** test-quadrature.cc:131-138: the loop over d = 0 .. n-1 *)
Fixpoint maxRelativeError (dim : nat) (t : GeometryType) (p : nat) (integral : Vec) (n : nat) : option R :=
  match n with
  | O => Some 0
  | S d =>
      match maxRelativeError dim t p integral d, analyticalSolution dim t p d with
      | Some m, Some exact =>
          let e := relativeError (integral d) exact in Some (if Rltb m e then e else m)
      | _, _ => None
      end
  end.
(** test-quadrature.cc:139-141 *)
Definition testEpsilon (eps : R) (p : nat) : R :=
  if Nat.eqb p 0 then 2 * eps else 2 ^ p * INR p * eps.
(** test-quadrature.cc:101-152 checkQuadrature: [Some false] sets success to false *)
Definition checkQuadrature (eps : R) (dim : nat) (quad : Rule) : option bool :=
  let p := Z.to_nat (ru_order quad) in
  match maxRelativeError dim (ru_type quad) p (powerSums p (ru_points quad)) dim with
  | Some m => Some (negb (Rltb (testEpsilon eps p) m))
  | None => None
  end.

(** test-quadrature.cc:155-182 checkWeights *)
Definition checkWeights (eps : R) (dim : nat) (quad : Rule) : bool :=
  let volume := fold_left (fun v q => v + snd q) (ru_points quad) 0 in
  negb (Rltb (INR (length (ru_points quad)) * eps) (Rabs (volume - referenceVolume (gt_id (ru_type quad)) dim))).

(** test-quadrature.cc:202-215: the loop over p = 0 .. n-1.  [None]: the call of rule() or
    analyticalSolution does not return; the flag says whether the loop was left with [return]. *)
Fixpoint checkOrders (lapack : Z -> nat -> option (list (R * R))) (eps : R) (dim : nat) (type : GeometryType) (qt n : nat)
  : option (bool * bool) :=
  match n with
  | O => Some (true, false)
  | S p =>
      match checkOrders lapack eps dim type qt p with
      | None => None
      | Some (success, true) => Some (success, true)
      | Some (success, false) =>
          match quadRule lapack (mkReq dim type (Z.of_nat p) qt) with
          | None => None
          | Some quad =>
              if gt_neqb (ru_type quad) type || (ru_order quad <? Z.of_nat p)%Z then Some (false, true)
              else
                match checkQuadrature eps dim quad with
                | None => None
                | Some b => Some (success && checkWeights eps dim quad && b, false)
                end
          end
      end
  end.
(** test-quadrature.cc:184-221 check<ctype,dim>(type, maxOrder, qt) *)
Fixpoint check (lapack : Z -> nat -> option (list (R * R))) (eps : R) (dim : nat) (type : GeometryType) (maxOrder qt : nat)
  : option bool :=
  match checkOrders lapack eps dim type qt (S maxOrder) with
  | None => None
  | Some (success, true) => Some success
  | Some (success, false) =>
      match dim with
      | O => Some success
      | S d =>
          if Nat.ltb 3 dim || isCube type || isSimplex type then
            match check lapack eps d (if isCube type then cube d else simplex d) maxOrder qt with
            | None => None
            | Some b => Some (success && b)
            end
          else Some success
      end
  end.

(** test-quadrature.cc:255-272: the calls of main for double; [hasLapack] is HAVE_LAPACK.  The
    checks of composite rules (276) and of Float128 (278-288) are left out. *)
Definition mainCalls (hasLapack : bool) (maxOrder : nat) : list (nat * GeometryType * nat * nat) :=
  [(4, cube 4, maxOrder, 0); (4, cube 4, Nat.min maxOrder 31, 4); (4, cube 4, Nat.min maxOrder 30, 5);
   (4, cube 4, Nat.min maxOrder 30, 6); (4, simplex 4, maxOrder, 0)]%nat
  ++ (if hasLapack then [(4, simplex 4, maxOrder, 3)]%nat else [])
  ++ [(3, prism, maxOrder, 0); (3, pyramid, maxOrder, 0)]%nat.
Definition runMain (lapack : Z -> nat -> option (list (R * R))) (hasLapack : bool) (eps : R) (maxOrder : nat) : option bool :=
  fold_left (fun acc c => match acc, c with
    | Some s, (dim, t, m, qt) => match check lapack eps dim t m qt with Some b => Some (s && b) | None => None end
    | None, _ => None end) (mainCalls hasLapack maxOrder) (Some true).
