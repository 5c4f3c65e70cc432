(** The shape of the quadrature tables: one [Entry] per group of case labels. *)
From Coq Require Import ZArith QArith List Bool.
Import ListNotations.

(** The statements of one [case]: labels, [delivered_order], points and weights. *)
Record Entry := mkEntry { en_cases : list Z; en_order : Z; en_data : list (Q * Q) }.

(** [switch (p)] over the entries; [None] is the [default] that throws. *)
Fixpoint switchOn (tab : list Entry) (p : Z) : option Entry :=
  match tab with
  | [] => None
  | e :: tab' => if existsb (Z.eqb p) (en_cases e) then Some e else switchOn tab' p
  end.

(** The assignments of simplexquadrature.hh and prismquadrature.hh: [G[m][i][j] = v],
    [G[m][i] = v] (all components), [W[m][i] = v], [O[m] = z]. *)
Inductive Assign :=
| AG (m i j : nat) (v : Q)
| AV (m i : nat) (v : Q)
| AW (m i : nat) (v : Q)
| AO (m : nat) (z : Z).

(** The arrays; objects with static storage start as zero. *)
Record Store := mkStore { st_G : nat -> nat -> nat -> Q; st_W : nat -> nat -> Q; st_O : nat -> Z }.
Definition store0 : Store := mkStore (fun _ _ _ => 0%Q) (fun _ _ => 0%Q) (fun _ => 0%Z).
Definition assign (s : Store) (a : Assign) : Store :=
  match a with
  | AG m i j v => mkStore (fun m' i' j' => if Nat.eqb m' m && Nat.eqb i' i && Nat.eqb j' j then v else st_G s m' i' j') (st_W s) (st_O s)
  | AV m i v => mkStore (fun m' i' j' => if Nat.eqb m' m && Nat.eqb i' i then v else st_G s m' i' j') (st_W s) (st_O s)
  | AW m i v => mkStore (st_G s) (fun m' i' => if Nat.eqb m' m && Nat.eqb i' i then v else st_W s m' i') (st_O s)
  | AO m z => mkStore (st_G s) (st_W s) (fun m' => if Nat.eqb m' m then z else st_O s m')
  end.
Definition run (prog : list Assign) : Store := fold_left assign prog store0.
