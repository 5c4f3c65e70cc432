(** Value semantics for the virtual iterators: every variable simply holds a value. *)
From Coq Require Import NArith PeanoNat Bool List.
From Verif Require Import M_Type M_Virtual.
Import ListNotations.

Section Values.
Variables (Kind St : Type) (kind_eqb : Kind -> Kind -> bool) (step : Kind -> St -> St) (same : Kind -> St -> St -> bool) (indexOf : Kind -> St -> nat).
Notation Back := (Back Kind St).
Notation Op := (Op Kind St).
Definition Env := nat -> option Back.
Definition upd (e : Env) (x : nat) (v : option Back) : Env := fun y => if Nat.eqb y x then v else e y.

Definition vexec (e : Env) (o : Op) : option (Env * Obs) :=
  match o with
  | OMake _ _ x b => match e x with Some _ => None | None => Some (upd e x (Some b), ONone) end
  | OCopy _ _ x y => match e x, e y with None, Some b => Some (upd e x (Some b), ONone) | _, _ => None end
  | OAssign _ _ x y => match e x, e y with Some _, Some b => if Nat.eqb x y then None else Some (upd e x (Some b), ONone) | _, _ => None end
  | OIncrement _ _ x => match e x with Some (mkBack _ _ k s) => Some (upd e x (Some (mkBack _ _ k (step k s))), ONone) | None => None end
  | ODestroy _ _ x => match e x with Some _ => Some (upd e x None, ONone) | None => None end
  | OEquals _ _ x y => match e x, e y with
                       | Some (mkBack _ _ k s), Some (mkBack _ _ k' s') => Some (e, OBool (kind_eqb k k' && same k s s'))
                       | _, _ => None end
  | OIndex _ _ x => match e x with Some (mkBack _ _ k s) => Some (e, ONat (indexOf k s)) | None => None end
  end.
Fixpoint vrun (e : Env) (os : list Op) : option (Env * list Obs) :=
  match os with
  | [] => Some (e, [])
  | o :: os => match vexec e o with
               | Some (e, r) => match vrun e os with Some (e, rs) => Some (e, r :: rs) | None => None end
               | None => None end
  end.

(** Programs that construct only what is not constructed, use only what is, and do not
    assign a variable to itself; [live] are the constructed variables. *)
Fixpoint legal (live : nat -> bool) (os : list Op) : bool :=
  match os with
  | [] => true
  | o :: os =>
      match o with
      | OMake _ _ x _ => negb (live x) && legal (fun y => Nat.eqb y x || live y) os
      | OCopy _ _ x y => negb (live x) && live y && legal (fun z => Nat.eqb z x || live z) os
      | OAssign _ _ x y => live x && live y && negb (Nat.eqb x y) && legal live os
      | OIncrement _ _ x => live x && legal live os
      | ODestroy _ _ x => live x && legal (fun y => negb (Nat.eqb y x) && live y) os
      | OEquals _ _ x y => live x && live y && legal live os
      | OIndex _ _ x => live x && legal live os
      end
  end.
(** operations that may change the variable y *)
Definition touches (y : nat) (o : Op) : bool :=
  match o with
  | OMake _ _ x _ | OCopy _ _ x _ | OAssign _ _ x _ | OIncrement _ _ x | ODestroy _ _ x => Nat.eqb x y
  | OEquals _ _ _ _ | OIndex _ _ _ => false
  end.
End Values.
