(** Model of dune/geometry/multilineargeometry.hh (MultiLinearGeometry and
    CachedMultiLinearGeometry).

    A corner iterator is the list of the corners not yet consumed; dereferencing or
    advancing it past the end is undefined ([None]).  [tol] is Traits::tolerance()
    (line 61).  Reference parameters that are written are threaded through and returned.
    Uninitialised local vectors and matrices are the arbitrary arguments [jk..].
    Scalars are exact real numbers.  The static topology id of hasSingleGeometryType
    (lines 222-226) is the same number as refElement().type().id(). *)
From Coq Require Import PeanoNat NArith Bool List Reals.
From Verif Require Import M_Type M_RefTopo M_RefGeo M_Matrix.
Import ListNotations.
Local Open Scope R_scope.

(** FieldVector::axpy, two_norm2 (dune-common) *)
Definition vaxpy (n : nat) (a : R) (x y : Vec) : Vec := fun i => if Nat.ltb i n then y i + a * x i else y i.
Definition vset (n : nat) (x y : Vec) : Vec := fun i => if Nat.ltb i n then x i else y i.
Definition norm2 (n : nat) (x : Vec) : R := rsum n (fun i => x i * x i).
Definition mrow (m : Mat) (i : nat) (r : Vec) : Mat := fun i' => if Nat.eqb i' i then r else m i'.
(** cxn > tolerance || cxn < -tolerance *)
Definition away (tol cxn : R) : bool := Rltb tol cxn || Rltb cxn (- tol).

Section ML.
Variables (cdim : nat) (tol : R) (tid : N) (mydim : nat).

(** lines 746-775 and 777-788 *)
Fixpoint ml_glob (dim : nat) (add : bool) (cit : list Vec) (df : R) (x : Vec) (rf : R) (y : Vec)
    : option (list Vec * Vec) :=
  match dim with
  | O =>
      match cit with
      | [] => None
      | origin :: cit => Some (cit, vset cdim (fun i => if add then y i + rf * origin i else rf * origin i) y)
      end
  | S d =>
      let xn := df * x d in
      let cxn := 1 - xn in
      if isPrism tid mydim (mydim - dim) then
        obind (ml_glob d add cit df x (rf * cxn) y) (fun '(cit, y) =>
        ml_glob d true cit df x (rf * xn) y)
      else
        obind (if away tol cxn then ml_glob d add cit (df / cxn) x (rf * cxn) y
               else ml_glob d add cit df x 0 y) (fun '(cit, y) =>
        match cit with
        | [] => None
        | tip :: cit => Some (cit, vaxpy cdim (rf * xn) tip y)
        end)
  end.

(** lines 791-891 and 893-901; [jk] is the uninitialised jt2 of line 870 *)
Fixpoint ml_jt (jk : Mat) (dim : nat) (add : bool) (cit : list Vec) (df : R) (x : Vec) (rf : R) (jt : Mat)
    : option (list Vec * Mat) :=
  match dim with
  | O => match cit with [] => None | _ :: cit => Some (cit, jt) end
  | S d =>
      let xn := df * x d in
      let cxn := 1 - xn in
      let cit2 := cit in
      if isPrism tid mydim (mydim - dim) then
        obind (ml_jt jk d add cit2 df x (rf * cxn) jt) (fun '(cit2, jt) =>
        obind (ml_jt jk d true cit2 df x (rf * xn) jt) (fun '(cit2, jt) =>
        obind (ml_glob d add cit df x (- rf) (jt d)) (fun '(cit, row) =>
        obind (ml_glob d true cit df x rf row) (fun '(cit, row) =>
        Some (cit, mrow jt d row)))))
      else
        let dfcxn := if away tol cxn then df / cxn else 0 in
        obind (ml_glob d add cit dfcxn x (- rf) (jt d)) (fun '(cit, row) =>
        match cit with
        | [] => None
        | tip :: cit =>
            let jt := mrow jt d (vaxpy cdim rf tip row) in
            if add then
              obind (ml_jt jk d false cit2 dfcxn x rf jk) (fun '(_, jt2) =>
              Some (cit, forN d (fun j jt =>
                let jt := mrow jt j (vaxpy cdim 1 (jt2 j) (jt j)) in
                mrow jt d (vaxpy cdim (dfcxn * x j) (jt2 j) (jt d))) jt))
            else
              obind (ml_jt jk d false cit2 dfcxn x rf jt) (fun '(_, jt) =>
              Some (cit, forN d (fun j jt => mrow jt d (vaxpy cdim (dfcxn * x j) (jt j) (jt d))) jt))
        end)
  end.

(** lines 905-932 and 934-941; [jk] is the uninitialised jtTop of line 917 *)
Fixpoint ml_affine (jk : Mat) (dim : nat) (cit : list Vec) (jt : Mat) : option (bool * list Vec * Mat) :=
  match dim with
  | O => match cit with [] => None | _ :: cit => Some (true, cit, jt) end
  | S d =>
      match cit with
      | [] => None
      | orgBottom :: _ =>
          obind (ml_affine jk d cit jt) (fun '(ok, cit, jt) =>
          if negb ok then Some (false, cit, jt) else
          match cit with
          | [] => None
          | orgTop :: cit' =>
              let last cit := Some (true, cit, mrow jt d (vset cdim (fun k => orgTop k - orgBottom k) (jt d))) in
              if isPrism tid mydim (mydim - dim) then
                obind (ml_affine jk d cit jk) (fun '(ok, cit, jtTop) =>
                if negb ok then Some (false, cit, jt) else
                let norm := forN d (fun i norm => norm + norm2 cdim (fun k => jtTop i k - jt i k)) 0 in
                if negb (Rltb norm tol) then Some (false, cit, jt) else last cit)
              else last cit'
          end)
      end
  end.
End ML.

(** ** the class: reference element and corner storage (lines 476-477) *)
Record MLGeo := { ml_id : N; ml_ref : RefElement; ml_corners : list Vec }.

Section Class.
Variables (mydim cdim : nat) (tol : R).
(** arbitrary contents of all uninitialised locals *)
Variables (jv : Vec) (jm jk j1 j2 : Mat).

(** line 290-298 *)
Definition mlg_global (g : MLGeo) (x : Vec) : option Vec :=
  option_map snd (ml_glob cdim tol (ml_id g) mydim mydim false (ml_corners g) 1 x 1 jv).
(** lines 377-385 *)
Definition mlg_jacobianTransposed (g : MLGeo) (x : Vec) : option Mat :=
  option_map snd (ml_jt cdim tol (ml_id g) mydim jk mydim false (ml_corners g) 1 x 1 jm).
(** lines 262-266 and 458-464 *)
Definition mlg_affine (g : MLGeo) : option (bool * Mat) :=
  option_map (fun '(b, _, jt) => (b, jt)) (ml_affine cdim tol (ml_id g) mydim jk mydim (ml_corners g) jm).
(** lines 272, 275-279, 282 *)
Definition mlg_cornercount (g : MLGeo) : nat := size (ml_id g) mydim mydim.
Definition mlg_corner (g : MLGeo) (i : nat) : option Vec := nth_error (ml_corners g) i.
Definition mlg_center (g : MLGeo) : option Vec :=
  obind (re_position (ml_id g) mydim (ml_ref g) 0 0) (mlg_global g).
(** lines 350-353, 363-366 *)
Definition mlg_integrationElement (g : MLGeo) (x : Vec) : option R :=
  obind (mlg_jacobianTransposed g x) (fun jt => sqrtDetAAT mydim cdim jt j1 j2).
Definition mlg_volume (g : MLGeo) : option R :=
  obind (re_position (ml_id g) mydim (ml_ref g) 0 0) (fun p =>
  obind (mlg_integrationElement g p) (fun d => Some (d * referenceVolume (ml_id g) mydim))).
(** lines 736-743 with 492-495: (detInv_, matrix) *)
Definition mlg_jacobianInverseTransposed (g : MLGeo) (x : Vec) : option (R * Mat) :=
  obind (mlg_jacobianTransposed g x) (fun jt => rightInvA mydim cdim jt jm j1 j2).
(** lines 407-421 *)
Definition mlg_jacobian (g : MLGeo) (x : Vec) : option Mat :=
  option_map (fun jt i j => jt j i) (mlg_jacobianTransposed g x).
Definition mlg_jacobianInverse (g : MLGeo) (x : Vec) : option Mat :=
  option_map (fun '(_, jit) i j => jit j i) (mlg_jacobianInverseTransposed g x).

(** lines 312-334.  The do-while loop runs with fuel; [LocMax] is the return on line 325. *)
Inductive LocResult := LocMax | LocPt (x : Vec).
Inductive Outcome (A : Type) := Done (a : A) | Undefined | OutOfFuel.
Arguments Done {A}. Arguments Undefined {A}. Arguments OutOfFuel {A}.
Definition ml_step (g : MLGeo) (y x : Vec) : option (bool * Vec) :=
  obind (mlg_global g x) (fun gx =>
  obind (mlg_jacobianTransposed g x) (fun jt =>
  xTRightInvA mydim cdim jt (fun k => gx k - y k) j1 j2)).
Fixpoint ml_newton (fuel : nat) (g : MLGeo) (affineMapping : bool) (y x : Vec) : Outcome LocResult :=
  match fuel with
  | O => OutOfFuel
  | S fuel =>
      match ml_step g y x with
      | None => Undefined
      | Some (false, _) => Done LocMax
      | Some (true, dx) =>
          let x := fun k => x k - dx k in
          if affineMapping then Done (LocPt x)
          else if Rltb tol (norm2 mydim dx) then ml_newton fuel g affineMapping y x
          else Done (LocPt x)
      end
  end.
Definition mlg_local (fuel : nat) (g : MLGeo) (y : Vec) : Outcome LocResult :=
  match re_position (ml_id g) mydim (ml_ref g) 0 0, mlg_affine g with
  | Some x, Some (aff, _) => ml_newton fuel g aff y x
  | _, _ => Undefined
  end.
End Class.
Arguments Done {A}. Arguments Undefined {A}. Arguments OutOfFuel {A}.

(** ** CachedMultiLinearGeometry (lines 523-729) *)

(** the data members, lines 722-728; jacobianInverseTransposed_ is a matrix with detInv_ *)
Record Cache := {
  ca_affine : bool;
  ca_jt : Mat;
  ca_jit : Mat;
  ca_detInv : R;
  ca_jitComputed : bool;
  ca_intComputed : bool }.

Section Cached.
Variables (mydim cdim : nat) (tol : R) (jv : Vec) (jm jk j1 j2 : Mat).
Notation B f := (f mydim cdim tol jv jm jk j1 j2).

(** lines 550-564; [jit0], [d0] are the uninitialised members *)
Definition cm_make (g : MLGeo) (jit0 : Mat) (d0 : R) : option Cache :=
  obind (mlg_affine mydim cdim tol jm jk g) (fun '(b, jt) =>
  Some {| ca_affine := b; ca_jt := jt; ca_jit := jit0; ca_detInv := d0; ca_jitComputed := false; ca_intComputed := false |}).

(** lines 580-590 *)
Definition cm_global (g : MLGeo) (c : Cache) (x : Vec) : option Vec :=
  if ca_affine c then
    obind (mlg_corner g 0) (fun o => Some (fun k => o k + rsum mydim (fun i => ca_jt c i k * x i)))
  else mlg_global mydim cdim tol jv g x.
(** lines 604-617; the return value of xTRightInvA is ignored *)
Definition cm_local (fuel : nat) (g : MLGeo) (c : Cache) (y : Vec) : Outcome LocResult :=
  if ca_affine c then
    match mlg_corner g 0 with
    | None => Undefined
    | Some o =>
        if ca_jitComputed c then Done (LocPt (mtv cdim 0 (ca_jit c) (fun k => y k - o k)))
        else match xTRightInvA mydim cdim (ca_jt c) (fun k => y k - o k) j1 j2 with
             | None => Undefined
             | Some (_, x) => Done (LocPt x)
             end
    end
  else mlg_local mydim cdim tol jv jm jk j1 j2 fuel g y.
(** lines 633-646 with setupDeterminant 497-500 *)
Definition cm_integrationElement (g : MLGeo) (c : Cache) (x : Vec) : option (R * Cache) :=
  if ca_affine c then
    obind (if negb (ca_intComputed c) then
             obind (sqrtDetAAT mydim cdim (ca_jt c) j1 j2) (fun d =>
             Some {| ca_affine := ca_affine c; ca_jt := ca_jt c; ca_jit := ca_jit c; ca_detInv := d;
                     ca_jitComputed := ca_jitComputed c; ca_intComputed := true |})
           else Some c) (fun c => Some (ca_detInv c, c))
  else obind (mlg_integrationElement mydim cdim tol jm jk j1 j2 g x) (fun d => Some (d, c)).
(** lines 649-655 *)
Definition cm_volume (g : MLGeo) (c : Cache) : option (R * Cache) :=
  if ca_affine c then
    obind (re_position (ml_id g) mydim (ml_ref g) 0 0) (fun p =>
    obind (cm_integrationElement g c p) (fun '(d, c) => Some (d * referenceVolume (ml_id g) mydim, c)))
  else obind (mlg_volume mydim cdim tol jm jk j1 j2 g) (fun v => Some (v, c)).
(** lines 666-672 *)
Definition cm_jacobianTransposed (g : MLGeo) (c : Cache) (x : Vec) : option Mat :=
  if ca_affine c then Some (ca_jt c) else mlg_jacobianTransposed mydim cdim tol jm jk g x.
(** lines 680-694 *)
Definition cm_jacobianInverseTransposed (g : MLGeo) (c : Cache) (x : Vec) : option (R * Mat * Cache) :=
  if ca_affine c then
    obind (if negb (ca_jitComputed c) then
             obind (rightInvA mydim cdim (ca_jt c) (ca_jit c) j1 j2) (fun '(d, jit) =>
             Some {| ca_affine := ca_affine c; ca_jt := ca_jt c; ca_jit := jit; ca_detInv := d;
                     ca_jitComputed := true; ca_intComputed := true |})
           else Some c) (fun c => Some (ca_detInv c, ca_jit c, c))
  else obind (mlg_jacobianInverseTransposed mydim cdim tol jm jk j1 j2 g x) (fun '(d, jit) => Some (d, jit, c)).

(** a history of calls; reading accessors leave the cache alone *)
Inductive Call := CGlobal (x : Vec) | CLocal (y : Vec) | CIntEl (x : Vec) | CVolume | CJT (x : Vec) | CJIT (x : Vec) | CAffine.
Inductive Reply := RVec (v : Vec) | RLoc (l : LocResult) | RNum (r : R) | RMat (m : Mat) | RDetMat (r : R) (m : Mat) | RBool (b : bool).
Definition out {A} (o : Outcome A) : option A := match o with Done a => Some a | _ => None end.
Definition cm_call (fuel : nat) (g : MLGeo) (c : Cache) (q : Call) : option (Reply * Cache) :=
  match q with
  | CGlobal x => option_map (fun v => (RVec v, c)) (cm_global g c x)
  | CLocal y => option_map (fun l => (RLoc l, c)) (out (cm_local fuel g c y))
  | CIntEl x => option_map (fun '(d, c) => (RNum d, c)) (cm_integrationElement g c x)
  | CVolume => option_map (fun '(d, c) => (RNum d, c)) (cm_volume g c)
  | CJT x => option_map (fun m => (RMat m, c)) (cm_jacobianTransposed g c x)
  | CJIT x => option_map (fun '(d, m, c) => (RDetMat d m, c)) (cm_jacobianInverseTransposed g c x)
  | CAffine => Some (RBool (ca_affine c), c)
  end.
Fixpoint cm_run (fuel : nat) (g : MLGeo) (c : Cache) (qs : list Call) : option (list Reply * Cache) :=
  match qs with
  | [] => Some ([], c)
  | q :: qs => obind (cm_call fuel g c q) (fun '(r, c) =>
               obind (cm_run fuel g c qs) (fun '(rs, c) => Some (r :: rs, c)))
  end.
(** the same calls on the uncached geometry *)
Definition ml_call (fuel : nat) (g : MLGeo) (q : Call) : option Reply :=
  match q with
  | CGlobal x => option_map RVec (mlg_global mydim cdim tol jv g x)
  | CLocal y => option_map RLoc (out (mlg_local mydim cdim tol jv jm jk j1 j2 fuel g y))
  | CIntEl x => option_map RNum (mlg_integrationElement mydim cdim tol jm jk j1 j2 g x)
  | CVolume => option_map RNum (mlg_volume mydim cdim tol jm jk j1 j2 g)
  | CJT x => option_map RMat (mlg_jacobianTransposed mydim cdim tol jm jk g x)
  | CJIT x => option_map (fun '(d, m) => RDetMat d m) (mlg_jacobianInverseTransposed mydim cdim tol jm jk j1 j2 g x)
  | CAffine => option_map (fun '(b, _) => RBool b) (mlg_affine mydim cdim tol jm jk g)
  end.
End Cached.
