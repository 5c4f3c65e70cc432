(** The mappings of the library in IEEE arithmetic: MultiLinearGeometry::global and affine
    (multilineargeometry.hh), CachedMultiLinearGeometry::global, AffineGeometry::global.

    The exact counterparts are in M_MultiLinear.v and M_Affine.v, the arithmetic is that of
    M_Float.v.  Vectors have [cdim] coordinates; a corner iterator is the list of the corners not
    yet consumed.  The operations of FieldVector and FieldMatrix (dune-common) are the plain
    loops: axpy is y[i] += a*x[i], umtv is y[j] += A[i][j]*x[i] for i, then j, two_norm2 sums the
    squares from left to right. *)
From Coq Require Import PeanoNat NArith ZArith Bool List.
From Flocq Require Import IEEE754.BinarySingleNaN.
From Verif Require Import M_Type M_RefTopo M_Matrix M_Float.
Import ListNotations.

Section FG.
Variables (prec emax : Z).
Context (Hp : FLX.Prec_gt_0 prec) (He : Prec_lt_emax prec emax).
Notation float := (binary_float prec emax).
Notation FVec := (nat -> float).
Notation FMat := (nat -> nat -> float).
Notation "a + b" := (fadd prec emax Hp He a b).
Notation "a - b" := (fsub prec emax Hp He a b).
Notation "a * b" := (fmul prec emax Hp He a b).
Notation "a / b" := (fdiv prec emax Hp He a b).
Notation one := (ofZ prec emax Hp He 1).
Notation zero := (ofZ prec emax Hp He 0).

(** line 61 *)
Definition ftol : float := ofZ prec emax Hp He 16 * epsilon prec emax Hp He.
(** cxn > tolerance || cxn < -tolerance *)
Definition faway (cxn : float) : bool := Bltb ftol cxn || Bltb cxn (Bopp ftol).

Variable cdim : nat.
Definition fset (x y : FVec) : FVec := fun i => if Nat.ltb i cdim then x i else y i.
Definition faxpy (a : float) (x y : FVec) : FVec := fun i => if Nat.ltb i cdim then (y i + a * x i) else y i.
Definition fmrow (m : FMat) (i : nat) (r : FVec) : FMat := fun i' => if Nat.eqb i' i then r else m i'.
Definition fnorm2 (x : FVec) : float := forN cdim (fun i s => s + x i * x i) zero.

Variables (tid : N) (mydim : nat).

(** lines 746-775 and 777-788 *)
Fixpoint fml_glob (dim : nat) (add : bool) (cit : list FVec) (df : float) (x : FVec) (rf : float) (y : FVec)
    : option (list FVec * FVec) :=
  match dim with
  | O =>
      match cit with
      | [] => None
      | origin :: cit => Some (cit, fset (fun i => if add then (y i + rf * origin i) else (rf * origin i)) y)
      end
  | S d =>
      let xn := df * x d in
      let cxn := one - xn in
      if isPrism tid mydim (mydim - dim) then
        obind (fml_glob d add cit df x (rf * cxn) y) (fun '(cit, y) =>
        fml_glob d true cit df x (rf * xn) y)
      else
        obind (if faway cxn then fml_glob d add cit (df / cxn) x (rf * cxn) y
               else fml_glob d add cit df x zero y) (fun '(cit, y) =>
        match cit with
        | [] => None
        | tip :: cit => Some (cit, faxpy (rf * xn) tip y)
        end)
  end.

(** lines 290-298; [jv] is the uninitialised y *)
Definition fmlg_global (jv : FVec) (corners : list FVec) (x : FVec) : option FVec :=
  option_map snd (fml_glob mydim false corners one x one jv).

(** lines 905-932 and 934-941; [jk] is the uninitialised jtTop of line 917 *)
Fixpoint fml_affine (jk : FMat) (dim : nat) (cit : list FVec) (jt : FMat) : option (bool * list FVec * FMat) :=
  match dim with
  | O => match cit with [] => None | _ :: cit => Some (true, cit, jt) end
  | S d =>
      match cit with
      | [] => None
      | orgBottom :: _ =>
          obind (fml_affine jk d cit jt) (fun '(ok, cit, jt) =>
          if negb ok then Some (false, cit, jt) else
          match cit with
          | [] => None
          | orgTop :: cit' =>
              let last cit := Some (true, cit, fmrow jt d (fset (fun k => orgTop k - orgBottom k) (jt d))) in
              if isPrism tid mydim (mydim - dim) then
                obind (fml_affine jk d cit jk) (fun '(ok, cit, jtTop) =>
                if negb ok then Some (false, cit, jt) else
                let norm := forN d (fun i norm => norm + fnorm2 (fun k => jtTop i k - jt i k)) zero in
                if Bleb ftol norm then Some (false, cit, jt) else last cit)
              else last cit'
          end)
      end
  end.

(** FieldMatrix::umtv (dune-common) of a matrix with [rows] rows *)
Definition fumtv (rows : nat) (A : FMat) (x y : FVec) : FVec :=
  forN rows (fun i y => forN cdim (fun j y => fupd prec emax y j (y j + A i j * x i)) y) y.

(** CachedMultiLinearGeometry (multilineargeometry.hh): the constructor (lines 550-566) computes
    affine_ and jacobianTransposed_ from the corners; lines 580-590 *)
Definition fcml_global (jk jm : FMat) (jv : FVec) (corners : list FVec) (x : FVec) : option FVec :=
  obind (fml_affine jk mydim corners jm) (fun '(affine, _, jt) =>
  if affine then
    match corners with
    | [] => None
    | corner0 :: _ => Some (fumtv mydim jt x corner0)
    end
  else fmlg_global jv corners x).

(** AffineGeometry (affinegeometry.hh): the constructor from a vector of vertices (lines 108-115)
    and global (lines 154-159).  The (pseudo) inverse and the integration element are not
    modelled here. *)
Record AffineF := { fa_origin : FVec; fa_jt : FMat }.
Fixpoint fcorner_rows (n : nat) (coords : list FVec) (origin : FVec) (jt : FMat) : option FMat :=
  match n with
  | O => Some jt
  | S i => obind (fcorner_rows i coords origin jt) (fun jt =>
           obind (nth_error coords (S i)) (fun c =>
           Some (fmrow jt i (fun k => c k - origin k))))
  end.
Definition fag_make (coords : list FVec) (junk : FMat) : option AffineF :=
  obind (nth_error coords 0) (fun origin =>
  obind (fcorner_rows mydim coords origin junk) (fun jt =>
  Some {| fa_origin := origin; fa_jt := jt |})).
Definition fag_global (g : AffineF) (local : FVec) : FVec := fumtv mydim (fa_jt g) local (fa_origin g).
End FG.
