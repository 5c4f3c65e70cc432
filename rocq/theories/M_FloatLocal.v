(** The matrix helper, the Jacobian and the inverse mappings of the library in IEEE arithmetic:
    utility/defaultmatrixhelper.hh, MultiLinearGeometry::jacobianTransposed, local and
    integrationElement (multilineargeometry.hh), gaussNewton (utility/algorithms.hh), the
    constructor and local of AffineGeometry (affinegeometry.hh).

    The exact counterparts are in M_Matrix.v, M_MultiLinear.v, M_GaussNewton.v and M_Affine.v, the
    arithmetic is that of M_Float.v.  An uninitialised local matrix is an arbitrary argument; a
    failing assertion is [None].  FieldMatrix::mv and mtv (dune-common) start from zero and add
    the products in the order of the indices; two_norm is the root of two_norm2. *)
From Coq Require Import PeanoNat NArith ZArith Bool List.
From Flocq Require Import IEEE754.BinarySingleNaN.
From Verif Require Import M_Type M_RefTopo M_Matrix M_Affine M_GaussNewton M_Float M_FloatGlobal.
Import ListNotations.

Section FL.
Variables (prec emax : Z).
Context (Hp : FLX.Prec_gt_0 prec) (He : Prec_lt_emax prec emax).
Notation float := (binary_float prec emax).
Notation FVec := (nat -> float).
Notation FMat := (nat -> nat -> float).
Notation "a + b" := (fadd prec emax Hp He a b).
Notation "a - b" := (fsub prec emax Hp He a b).
Notation "a * b" := (fmul prec emax Hp He a b).
Notation "a / b" := (fdiv prec emax Hp He a b).
Notation one := (ofZ prec emax Hp He 1).
Notation zero := (ofZ prec emax Hp He 0).
Notation upd := (fupd prec emax).
Notation "a > b" := (fgt prec emax a b).

(** std::sqrt, std::abs *)
Definition fsqrt (a : float) : float := @Bsqrt prec emax Hp He mode_NE a.
Definition fmupd (m : FMat) (i k : nat) (x : float) : FMat :=
  fun i' k' => if Nat.eqb i' i && Nat.eqb k' k then x else m i' k'.

(** ** defaultmatrixhelper.hh *)

(** hh:48-61 *)
Definition fATBT (m n p : nat) (A B ret : FMat) : FMat :=
  forN n (fun i ret =>
    forN p (fun j ret =>
      forN m (fun k ret => fmupd ret i j (ret i j + A k i * B j k))
        (fmupd ret i j zero)) ret) ret.

(** hh:86-100 *)
Definition fAAT_L (m n : nat) (A ret : FMat) : FMat :=
  forN m (fun i ret =>
    forN (S i) (fun j ret =>
      forR 1 n (fun k ret => fmupd ret i j (ret i j + A i k * A j k))
        (fmupd ret i j (A i 0%nat * A j 0%nat))) ret) ret.

(** hh:147-165 *)
Definition fLTL (n : nat) (L ret : FMat) : FMat :=
  forN n (fun i ret =>
    let ret := forN i (fun j ret =>
      let ret := forR i n (fun k ret => fmupd ret i j (ret i j + L k i * L k j)) (fmupd ret i j zero) in
      fmupd ret j i (ret i j)) ret in
    forR i n (fun k ret => fmupd ret i i (ret i i + L k i * L k i)) (fmupd ret i i zero)) ret.

(** hh:187-223: the pivot is lines 198-200, the test line 204, the assertion line 208, the
    column below the pivot lines 211-218 *)
Definition fcholesky_pivot (A ret : FMat) (i : nat) : float :=
  forN i (fun j xDiag => xDiag - ret i j * ret i j) (A i i).
Definition fcholesky_column (n : nat) (A ret : FMat) (i : nat) : FMat :=
  let invrii := one / ret i i in
  forR (S i) n (fun k ret =>
    fmupd ret k i (invrii * forN i (fun j x => x - ret i j * ret k j) (A k i))) ret.
Definition fcholesky_L (n : nat) (A ret : FMat) (checkSingular : bool) : option (bool * FMat) :=
  match
    forN n (fun i f => fbind f (fun ret =>
      let xDiag := fcholesky_pivot A ret i in
      if checkSingular && negb (xDiag > zero) then Ret false ret
      else if negb (xDiag > zero) then Fail
      else Run (fcholesky_column n A (fmupd ret i i (fsqrt xDiag)) i))) (Run ret)
  with
  | Run ret => Some (true, ret)
  | Ret b ret => Some (b, ret)
  | Fail => None
  end.

(** hh:225-234 *)
Definition fdetL (n : nat) (L : FMat) : float := forN n (fun i det => det * L i i) one.

(** hh:236-257; in place, returns (det, L) *)
Definition finvL (n : nat) (L : FMat) : float * FMat :=
  forN n (fun i '(det, L) =>
    let det := det * L i i in
    let L := fmupd L i i (one / L i i) in
    (det,
     forN i (fun j L =>
       let x := forR (S j) i (fun k x => x + L i k * L k j) (L i j * L j j) in
       fmupd L i j (Bopp (L i i) * x)) L)) (one, L).

(** hh:259-270 *)
Definition finvLx (n : nat) (L : FMat) (x : FVec) : FVec :=
  forN n (fun i x =>
    let x := forN i (fun j x => upd x i (x i - L i j * x j)) x in
    upd x i (x i / L i i)) x.

(** hh:272-283; i runs from n down to 1, here i-1 = n-1-t *)
Definition finvLTx (n : nat) (L : FMat) (x : FVec) : FVec :=
  forN n (fun t x =>
    let i := (n - t)%nat in
    let x := forR i n (fun j x => upd x (i - 1)%nat (x (i - 1)%nat - L j (i - 1)%nat * x j)) x in
    upd x (i - 1)%nat (x (i - 1)%nat / L (i - 1)%nat (i - 1)%nat)) x.

(** hh:285-293 *)
Definition fspdDetA (n : nat) (A junk : FMat) : option float :=
  obind (fcholesky_L n A junk false) (fun '(_, L) => Some (fdetL n L)).

(** hh:295-305; (return value, A) *)
Definition fspdInvA (n : nat) (A junk : FMat) : option (float * FMat) :=
  obind (fcholesky_L n A junk false) (fun '(_, L) =>
    let '(det, L) := finvL n L in Some (det, fLTL n L A)).

(** hh:307-318 *)
Definition fspdInvAx (n : nat) (A : FMat) (x : FVec) (junk : FMat) (checkSingular : bool) : option (bool * FVec) :=
  obind (fcholesky_L n A junk checkSingular) (fun '(invertible, L) =>
    if negb invertible then Some (invertible, x)
    else Some (invertible, finvLTx n L (finvLx n L x))).

(** hh:334-377 *)
Definition fdet22 (A : FMat) : float := A 0%nat 0%nat * A 1%nat 1%nat - A 1%nat 0%nat * A 0%nat 1%nat.
Definition fsqrtDetAAT (m n : nat) (A junk junk' : FMat) : option float :=
  if Nat.eqb n 2 && Nat.eqb m 2 then Some (Babs (fdet22 A))
  else if Nat.eqb n 3 && Nat.eqb m 3 then
    let v0 := A 0%nat 1%nat * A 1%nat 2%nat - A 1%nat 1%nat * A 0%nat 2%nat in
    let v1 := A 0%nat 2%nat * A 1%nat 0%nat - A 1%nat 2%nat * A 0%nat 0%nat in
    let v2 := A 0%nat 0%nat * A 1%nat 1%nat - A 1%nat 0%nat * A 0%nat 1%nat in
    Some (Babs (v0 * A 2%nat 0%nat + v1 * A 2%nat 1%nat + v2 * A 2%nat 2%nat))
  else if Nat.eqb n 3 && Nat.eqb m 2 then
    let v0 := A 0%nat 0%nat * A 1%nat 1%nat - A 0%nat 1%nat * A 1%nat 0%nat in
    let v1 := A 0%nat 0%nat * A 1%nat 2%nat - A 1%nat 0%nat * A 0%nat 2%nat in
    let v2 := A 0%nat 1%nat * A 1%nat 2%nat - A 0%nat 2%nat * A 1%nat 1%nat in
    Some (fsqrt (v0 * v0 + v1 * v1 + v2 * v2))
  else if Nat.leb m n then fspdDetA m (fAAT_L m n A junk) junk'
  else Some zero.

(** the 2x2 branch of rightInvA (hh:424-430) *)
Definition finv22 (A ret : FMat) : float * FMat :=
  let det := fdet22 A in
  let detInv := one / det in
  let ret := fmupd ret 0 0 (A 1%nat 1%nat * detInv) in
  let ret := fmupd ret 1 1 (A 0%nat 0%nat * detInv) in
  let ret := fmupd ret 1 0 (Bopp (A 1%nat 0%nat) * detInv) in
  let ret := fmupd ret 0 1 (Bopp (A 0%nat 1%nat) * detInv) in
  (Babs det, ret).
(** hh:416-440 *)
Definition frightInvA (m n : nat) (A ret junk junk' : FMat) : option (float * FMat) :=
  if Nat.eqb n 2 && Nat.eqb m 2 then Some (finv22 A ret)
  else obind (fspdInvA m (fAAT_L m n A junk) junk')
         (fun '(det, aat) => Some (det, fATBT m n m A aat ret)).

(** FieldMatrix::mv and mtv (dune-common) *)
Definition fmv (n : nat) (A : FMat) (x : FVec) : FVec := fun i => forN n (fun j s => s + A i j * x j) zero.
Definition fmtv (m : nat) (A : FMat) (x : FVec) : FVec := fun j => forN m (fun i s => s + A i j * x i) zero.

(** hh:442-452 *)
Definition fxTRightInvA (m n : nat) (A : FMat) (x : FVec) (junk junk' : FMat) : option (bool * FVec) :=
  let y := fmv n A x in
  fspdInvAx m (fAAT_L m n A junk) y junk' true.

(** ** MultiLinearGeometry *)
Section ML.
Variables (cdim : nat) (tid : N) (mydim : nat).
Notation glob := (fml_glob prec emax Hp He cdim tid mydim).
Notation away := (faway prec emax Hp He).
Notation axpy := (faxpy prec emax Hp He cdim).
Notation row := (fmrow prec emax).

(** lines 791-891 and 893-901; [jk] is the uninitialised jt2 of line 870 *)
Fixpoint fml_jt (jk : FMat) (dim : nat) (add : bool) (cit : list FVec) (df : float) (x : FVec) (rf : float) (jt : FMat)
    : option (list FVec * FMat) :=
  match dim with
  | O => match cit with [] => None | _ :: cit => Some (cit, jt) end
  | S d =>
      let xn := df * x d in
      let cxn := one - xn in
      let cit2 := cit in
      if isPrism tid mydim (mydim - dim) then
        obind (fml_jt jk d add cit2 df x (rf * cxn) jt) (fun '(cit2, jt) =>
        obind (fml_jt jk d true cit2 df x (rf * xn) jt) (fun '(cit2, jt) =>
        obind (glob d add cit df x (Bopp rf) (jt d)) (fun '(cit, r) =>
        obind (glob d true cit df x rf r) (fun '(cit, r) =>
        Some (cit, row jt d r)))))
      else
        let dfcxn := if away cxn then df / cxn else zero in
        obind (glob d add cit dfcxn x (Bopp rf) (jt d)) (fun '(cit, r) =>
        match cit with
        | [] => None
        | tip :: cit =>
            let jt := row jt d (axpy rf tip r) in
            if add then
              obind (fml_jt jk d false cit2 dfcxn x rf jk) (fun '(_, jt2) =>
              Some (cit, forN d (fun j jt =>
                let jt := row jt j (fset prec emax cdim (fun i => jt j i + jt2 j i) (jt j)) in
                row jt d (axpy (dfcxn * x j) (jt2 j) (jt d))) jt))
            else
              obind (fml_jt jk d false cit2 dfcxn x rf jt) (fun '(_, jt) =>
              Some (cit, forN d (fun j jt => row jt d (axpy (dfcxn * x j) (jt j) (jt d))) jt))
        end)
  end.

(** arbitrary contents of all uninitialised locals; the corners *)
Variables (jv : FVec) (jm jk j1 j2 : FMat).
Variable corners : list FVec.

(** lines 290-298, 377-385, 262-266, 350-353 *)
Definition fmlg_jacobianTransposed (x : FVec) : option FMat :=
  option_map snd (fml_jt jk mydim false corners one x one jm).
Definition fmlg_affine : option bool :=
  option_map (fun '(b, _, _) => b) (fml_affine prec emax Hp He cdim tid mydim jk mydim corners jm).
Definition fmlg_integrationElement (x : FVec) : option float :=
  obind (fmlg_jacobianTransposed x) (fun jt => fsqrtDetAAT mydim cdim jt j1 j2).

(** lines 312-334.  The do-while loop runs with fuel; [NwMax] is the return on line 325, [NwPt] the
    one on line 333, [NwLoop] says that the fuel is used up. *)
Inductive FLocResult := NwMax | NwPt (x : FVec) | NwUndefined | NwLoop.
(** lines 322-324 *)
Definition fml_step (y x : FVec) : option (bool * FVec) :=
  obind (fmlg_global prec emax Hp He cdim tid mydim jv corners x) (fun gx =>
  obind (fmlg_jacobianTransposed x) (fun jt =>
  fxTRightInvA mydim cdim jt (fun k => gx k - y k) j1 j2)).
Fixpoint fml_newton (fuel : nat) (affineMapping : bool) (y x : FVec) : FLocResult :=
  match fuel with
  | O => NwLoop
  | S fuel =>
      match fml_step y x with
      | None => NwUndefined
      | Some (false, _) => NwMax
      | Some (true, dx) =>
          let x := fun k => x k - dx k in
          if affineMapping then NwPt x
          else if fnorm2 prec emax Hp He mydim dx > ftol prec emax Hp He then fml_newton fuel affineMapping y x
          else NwPt x
      end
  end.
(** [x0] is refElement().position(0,0) *)
Definition fmlg_local (fuel : nat) (x0 y : FVec) : FLocResult :=
  match fmlg_affine with
  | Some aff => fml_newton fuel aff y x0
  | None => NwUndefined
  end.
End ML.

(** ** the barycentre of the reference element: referenceelementimplementation.hh:113-144 and 593-600
    with codim = i = 0, where subEntity(0,0,j,dim) is j *)
Fixpoint fcorners (topologyId : N) (dim : nat) : list FVec :=
  match dim with
  | O => [fun _ => zero]
  | S d =>
      let base := fcorners (baseTopologyId topologyId dim 1) d in
      if isPrism topologyId dim 0
      then base ++ map (fun v => upd v d one) base
      else base ++ [upd (fun _ => zero) d one]
  end.
Definition fcenter (topologyId : N) (dim : nat) : FVec :=
  if Nat.eqb dim 0 then (fun _ => zero)
  else
    let corners := fcorners topologyId dim in
    fun k => fold_left (fun s c => s + c k) corners zero * (one / ofZ prec emax Hp He (Z.of_nat (length corners))).

(** ** AffineGeometry (affinegeometry.hh:101-106): jacobianInverseTransposed_ and
    integrationElement_ are computed in the constructor; local is lines 174-179 *)
Record AffineFI := { fai_origin : FVec; fai_jt : FMat; fai_jit : FMat; fai_int : float }.
Definition fai_make (mydim cdim : nat) (origin : FVec) (jt ret j1 j2 : FMat) : option AffineFI :=
  obind (frightInvA mydim cdim jt ret j1 j2) (fun '(det, jit) =>
  Some {| fai_origin := origin; fai_jt := jt; fai_jit := jit; fai_int := det |}).
Definition fai_local (cdim : nat) (g : AffineFI) (global : FVec) : FVec :=
  fmtv cdim (fai_jit g) (fun k => global k - fai_origin g k).

(** ** gaussNewton (algorithms.hh:57-113)

    [f] and [df] are arbitrary function objects; the options are lines 24-38. *)
Record FGNOpts := { fgn_maxIt : Z; fgn_absTol : float; fgn_maxInnerIt : Z; fgn_theta : float }.
(** lines 27-37: the defaults *)
Definition fgn_default : FGNOpts :=
  {| fgn_maxIt := 100; fgn_absTol := fsqrt (epsilon prec emax Hp He); fgn_maxInnerIt := 10; fgn_theta := fhalf prec emax Hp He |}.
Definition ftwo_norm (n : nat) (x : FVec) : float := fsqrt (fnorm2 prec emax Hp He n x).
Section GN.
Variables (mydim cdim : nat) (j1 j2 : FMat).
Variables (f : FVec -> option FVec) (df : FVec -> option FMat) (y : FVec) (o : FGNOpts).

(** the line search, lines 84-94: n iterations left; state (x, dy, resNorm) *)
Fixpoint fgn_search (n : nat) (x0 dx : FVec) (resNorm0 alpha : float) (st : FVec * FVec * float) : option (FVec * FVec * float) :=
  match n with
  | O => Some st
  | S n =>
      let x := fun k => x0 k - alpha * dx k in
      obind (f x) (fun fx =>
      let dy := fun k => fx k - y k in
      let resNorm := ftwo_norm cdim dy in
      if Bltb resNorm resNorm0 then Some (x, dy, resNorm)
      else fgn_search n x0 dx resNorm0 (alpha * fgn_theta o) (x, dy, resNorm))
  end.

(** the outer loop and the end, lines 74-112: n iterations left; the code and x0 *)
Fixpoint fgn_loop (n : nat) (x dy x0 : FVec) (resNorm0 resNorm : float) : option (GNCode * FVec) :=
  match n with
  | O => if negb (Bltb resNorm (fgn_absTol o)) then Some (GN_TOLERANCE_NOT_REACHED, x0) else Some (GN_OK, x0)
  | S n =>
      obind (df x) (fun J =>
      obind (fxTRightInvA mydim cdim J dy j1 j2) (fun '(invertible, dx) =>
      if negb invertible then Some (GN_JACOBIAN_NOT_INVERTIBLE, x0)
      else
        obind (fgn_search (Z.to_nat (fgn_maxInnerIt o)) x0 dx resNorm0 one (x, dy, resNorm)) (fun '(x, dy, resNorm) =>
        if negb (Bltb resNorm resNorm0) then Some (GN_STAGNATION, x0)
        else if Bltb resNorm (fgn_absTol o) then Some (GN_OK, x)
        else fgn_loop n x dy x resNorm resNorm)))
  end.

(** lines 62-113: the returned code and the final value of the argument x0 *)
Definition fgaussNewton (x0 : FVec) : option (GNCode * FVec) :=
  obind (f x0) (fun fx =>
  let dy := fun k => fx k - y k in
  fgn_loop (Z.to_nat (fgn_maxIt o)) x0 dy x0 (ftwo_norm cdim dy) zero).
End GN.
End FL.
