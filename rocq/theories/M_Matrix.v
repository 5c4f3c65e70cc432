(** Model of dune/geometry/utility/defaultmatrixhelper.hh (FieldMatrixHelper).

    Matrices are entry functions ([Mat], see M_RefGeo); the C++ loops are kept, with the
    matrix that is written as loop state.  An uninitialised local matrix is an arbitrary
    argument ([junk]).  A failing assertion (line 208, root of a non-positive pivot) is
    the outcome [None].  Scalars are exact real numbers. *)
From Coq Require Import PeanoNat Bool List Reals.
From Verif Require Import M_Type M_RefTopo M_RefGeo.
Local Open Scope R_scope.

(** for( k = 0; k < n; ++k ) s = body k s *)
Fixpoint forN {S : Type} (n : nat) (body : nat -> S -> S) (s : S) : S :=
  match n with O => s | Datatypes.S n' => body n' (forN n' body s) end.
(** for( k = lo; k < hi; ++k ) *)
Definition forR {S : Type} (lo hi : nat) (body : nat -> S -> S) (s : S) : S :=
  forN (hi - lo) (fun k => body (lo + k)%nat) s.

(** loops containing a return statement *)
Inductive Flow (S : Type) := Run (s : S) | Ret (b : bool) (s : S) | Fail.
Arguments Run {S}. Arguments Ret {S}. Arguments Fail {S}.
Definition fbind {S} (f : Flow S) (body : S -> Flow S) : Flow S :=
  match f with Run s => body s | _ => f end.

(** hh:48-61 *)
Definition ATBT (m n p : nat) (A B ret : Mat) : Mat :=
  forN n (fun i ret =>
    forN p (fun j ret =>
      forN m (fun k ret => mupd ret i j (ret i j + A k i * B j k))
        (mupd ret i j 0)) ret) ret.

(** hh:63-76 *)
Definition ATA_L (m n : nat) (A ret : Mat) : Mat :=
  forN n (fun i ret =>
    forN (S i) (fun j ret =>
      forN m (fun k ret => mupd ret i j (ret i j + A k i * A k j))
        (mupd ret i j 0)) ret) ret.

(** hh:86-100; reads column 0 unconditionally *)
Definition AAT_L (m n : nat) (A ret : Mat) : Mat :=
  forN m (fun i ret =>
    forN (S i) (fun j ret =>
      forR 1 n (fun k ret => mupd ret i j (ret i j + A i k * A j k))
        (mupd ret i j (A i 0%nat * A j 0%nat))) ret) ret.

(** hh:102-119 *)
Definition AAT (m n : nat) (A ret : Mat) : Mat :=
  forN m (fun i ret =>
    let ret := forN i (fun j ret =>
      let ret := forN n (fun k ret => mupd ret i j (ret i j + A i k * A j k)) (mupd ret i j 0) in
      mupd ret j i (ret i j)) ret in
    forN n (fun k ret => mupd ret i i (ret i i + A i k * A i k)) (mupd ret i i 0)) ret.

(** hh:121-132 *)
Definition Lx (n : nat) (L : Mat) (x ret : Vec) : Vec :=
  forN n (fun i ret =>
    forN (S i) (fun j ret => upd ret i (ret i + L i j * x j)) (upd ret i 0)) ret.

(** hh:134-145 *)
Definition LTx (n : nat) (L : Mat) (x ret : Vec) : Vec :=
  forN n (fun i ret =>
    forR i n (fun j ret => upd ret i (ret i + L j i * x j)) (upd ret i 0)) ret.

(** hh:147-165 *)
Definition LTL (n : nat) (L ret : Mat) : Mat :=
  forN n (fun i ret =>
    let ret := forN i (fun j ret =>
      let ret := forR i n (fun k ret => mupd ret i j (ret i j + L k i * L k j)) (mupd ret i j 0) in
      mupd ret j i (ret i j)) ret in
    forR i n (fun k ret => mupd ret i i (ret i i + L k i * L k i)) (mupd ret i i 0)) ret.

(** hh:167-185 *)
Definition LLT (n : nat) (L ret : Mat) : Mat :=
  forN n (fun i ret =>
    let ret := forN i (fun j ret =>
      let ret := forN (S j) (fun k ret => mupd ret i j (ret i j + L i k * L j k)) (mupd ret i j 0) in
      mupd ret j i (ret i j)) ret in
    forN (S i) (fun k ret => mupd ret i i (ret i i + L i k * L i k)) (mupd ret i i 0)) ret.

(** hh:187-223: the pivot is lines 198-200, the test line 204, the assertion line 208, the
    column below the pivot lines 211-218 *)
Definition cholesky_pivot (A ret : Mat) (i : nat) : R :=
  forN i (fun j xDiag => xDiag - ret i j * ret i j) (A i i).
Definition cholesky_column (n : nat) (A ret : Mat) (i : nat) : Mat :=
  let invrii := 1 / ret i i in
  forR (S i) n (fun k ret =>
    mupd ret k i (invrii * forN i (fun j x => x - ret i j * ret k j) (A k i))) ret.
Definition cholesky_L (n : nat) (A ret : Mat) (checkSingular : bool) : option (bool * Mat) :=
  match
    forN n (fun i f => fbind f (fun ret =>
      let xDiag := cholesky_pivot A ret i in
      if checkSingular && negb (Rltb 0 xDiag) then Ret false ret
      else if negb (Rltb 0 xDiag) then Fail
      else Run (cholesky_column n A (mupd ret i i (sqrt xDiag)) i))) (Run ret)
  with
  | Run ret => Some (true, ret)
  | Ret b ret => Some (b, ret)
  | Fail => None
  end.

(** hh:225-234 *)
Definition detL (n : nat) (L : Mat) : R := forN n (fun i det => det * L i i) 1.

(** hh:236-257; in place, returns (det, L) *)
Definition invL (n : nat) (L : Mat) : R * Mat :=
  forN n (fun i '(det, L) =>
    let det := det * L i i in
    let L := mupd L i i (1 / L i i) in
    (det,
     forN i (fun j L =>
       let x := forR (S j) i (fun k x => x + L i k * L k j) (L i j * L j j) in
       mupd L i j ((- L i i) * x)) L)) (1, L).

(** hh:259-270 *)
Definition invLx (n : nat) (L : Mat) (x : Vec) : Vec :=
  forN n (fun i x =>
    let x := forN i (fun j x => upd x i (x i - L i j * x j)) x in
    upd x i (x i / L i i)) x.

(** hh:272-283; i runs from n down to 1, here i-1 = n-1-t *)
Definition invLTx (n : nat) (L : Mat) (x : Vec) : Vec :=
  forN n (fun t x =>
    let i := (n - t)%nat in
    let x := forR i n (fun j x => upd x (i - 1)%nat (x (i - 1)%nat - L j (i - 1)%nat * x j)) x in
    upd x (i - 1)%nat (x (i - 1)%nat / L (i - 1)%nat (i - 1)%nat)) x.

(** hh:285-293 *)
Definition spdDetA (n : nat) (A junk : Mat) : option R :=
  obind (cholesky_L n A junk false) (fun '(_, L) => Some (detL n L)).

(** hh:295-305; (return value, A) *)
Definition spdInvA (n : nat) (A junk : Mat) : option (R * Mat) :=
  obind (cholesky_L n A junk false) (fun '(_, L) =>
    let '(det, L) := invL n L in Some (det, LTL n L A)).

(** hh:307-318 *)
Definition spdInvAx (n : nat) (A : Mat) (x : Vec) (junk : Mat) (checkSingular : bool) : option (bool * Vec) :=
  obind (cholesky_L n A junk checkSingular) (fun '(invertible, L) =>
    if negb invertible then Some (invertible, x)
    else Some (invertible, invLTx n L (invLx n L x))).

(** hh:320-332 *)
Definition detATA (m n : nat) (A junk junk' : Mat) : option R :=
  if Nat.leb n m then spdDetA n (ATA_L m n A junk) junk' else Some 0.

(** hh:334-377 *)
Definition sqrtDetAAT (m n : nat) (A junk junk' : Mat) : option R :=
  if Nat.eqb n 2 && Nat.eqb m 2 then
    Some (Rabs (A 0%nat 0%nat * A 1%nat 1%nat - A 1%nat 0%nat * A 0%nat 1%nat))
  else if Nat.eqb n 3 && Nat.eqb m 3 then
    let v0 := A 0%nat 1%nat * A 1%nat 2%nat - A 1%nat 1%nat * A 0%nat 2%nat in
    let v1 := A 0%nat 2%nat * A 1%nat 0%nat - A 1%nat 2%nat * A 0%nat 0%nat in
    let v2 := A 0%nat 0%nat * A 1%nat 1%nat - A 1%nat 0%nat * A 0%nat 1%nat in
    Some (Rabs (v0 * A 2%nat 0%nat + v1 * A 2%nat 1%nat + v2 * A 2%nat 2%nat))
  else if Nat.eqb n 3 && Nat.eqb m 2 then
    let v0 := A 0%nat 0%nat * A 1%nat 1%nat - A 0%nat 1%nat * A 1%nat 0%nat in
    let v1 := A 0%nat 0%nat * A 1%nat 2%nat - A 1%nat 0%nat * A 0%nat 2%nat in
    let v2 := A 0%nat 1%nat * A 1%nat 2%nat - A 0%nat 2%nat * A 1%nat 1%nat in
    Some (sqrt (v0 * v0 + v1 * v1 + v2 * v2))
  else if Nat.leb m n then spdDetA m (AAT_L m n A junk) junk'
  else Some 0.

(** the common 2x2 branch of leftInvA (hh:387-393) and rightInvA (hh:424-430) *)
Definition inv22 (A ret : Mat) : R * Mat :=
  let det := A 0%nat 0%nat * A 1%nat 1%nat - A 1%nat 0%nat * A 0%nat 1%nat in
  let detInv := 1 / det in
  let ret := mupd ret 0 0 (A 1%nat 1%nat * detInv) in
  let ret := mupd ret 1 1 (A 0%nat 0%nat * detInv) in
  let ret := mupd ret 1 0 (- A 1%nat 0%nat * detInv) in
  let ret := mupd ret 0 1 (- A 0%nat 1%nat * detInv) in
  (Rabs det, ret).

(** hh:379-403 *)
Definition leftInvA (m n : nat) (A ret junk junk' : Mat) : option (R * Mat) :=
  if Nat.eqb n 2 && Nat.eqb m 2 then Some (inv22 A ret)
  else obind (spdInvA n (ATA_L m n A junk) junk')
         (fun '(det, ata) => Some (det, ATBT n n m ata A ret)).

(** FieldMatrix::mv and mtv (dune-common, not in /repo) *)
Definition mv (m n : nat) (A : Mat) (x : Vec) : Vec := fun i => rsum n (fun j => A i j * x j).
Definition mtv (m n : nat) (A : Mat) (x : Vec) : Vec := fun j => rsum m (fun i => A i j * x i).

(** hh:405-414 *)
Definition leftInvAx (m n : nat) (A : Mat) (x : Vec) (junk junk' : Mat) : option (bool * Vec) :=
  let y := mtv m n A x in
  spdInvAx n (ATA_L m n A junk) y junk' true.

(** hh:416-440 *)
Definition rightInvA (m n : nat) (A ret junk junk' : Mat) : option (R * Mat) :=
  if Nat.eqb n 2 && Nat.eqb m 2 then Some (inv22 A ret)
  else obind (spdInvA m (AAT_L m n A junk) junk')
         (fun '(det, aat) => Some (det, ATBT m n m A aat ret)).

(** hh:442-452 *)
Definition xTRightInvA (m n : nat) (A : Mat) (x : Vec) (junk junk' : Mat) : option (bool * Vec) :=
  let y := mv m n A x in
  spdInvAx m (AAT_L m n A junk) y junk' true.
