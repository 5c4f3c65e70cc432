(** Model of the text forms of geometry types: operator<< (type.hh:410-439), to_string and
    geometryTypeFromString (dune/python/geometry/type.hh:24-191).

    A std::string is the list of its characters.  [DUNE_THROW] and the exceptions of std::stoul
    are [Throw]; failed asserts, accesses behind the end of the string and undefined shifts are
    [Undef]. *)
From Coq Require Import NArith ZArith PeanoNat Bool List Ascii String.
From Verif Require Import M_Type M_TypeIndex.
Import ListNotations.

Definition str := list ascii.
Definition lit (s : string) : str := list_ascii_of_string s.

(** ** Decimal numbers *)
Definition digit (n : N) : ascii := ascii_of_N (48 + n).
Fixpoint dec_aux (fuel : nat) (n : N) (acc : str) : str :=
  match fuel with
  | O => acc
  | S f => let acc := digit (n mod 10) :: acc in
           if (n / 10 =? 0)%N then acc else dec_aux f (n / 10) acc
  end.
(** std::to_string(unsigned int), operator<< for unsigned int (default format flags) *)
Definition dec (n : N) : str := dec_aux (S (N.size_nat n)) n [].

(** isspace in the "C" locale *)
Definition isspace (c : ascii) : bool :=
  let n := N_of_ascii c in (n =? 32)%N || ((9 <=? n)%N && (n <=? 13)%N).
Definition isdigit (c : ascii) : bool :=
  let n := N_of_ascii c in (48 <=? n)%N && (n <=? 57)%N.
Fixpoint dropwhile (p : ascii -> bool) (s : str) : str :=
  match s with c :: r => if p c then dropwhile p r else s | [] => [] end.
Fixpoint takewhile (p : ascii -> bool) (s : str) : str :=
  match s with c :: r => if p c then c :: takewhile p r else [] | [] => [] end.
Definition value (s : str) : N := fold_left (fun v c => 10 * v + (N_of_ascii c - 48))%N s 0%N.
(** std::stoul(s), base 10, unsigned long with 64 bits: leading white space, an optional sign,
    digits; the rest is ignored.  [None]: std::invalid_argument (no digits) or std::out_of_range.
    A minus sign negates modulo 2^64. *)
Definition stoul (s : str) : option N :=
  let s := dropwhile isspace s in
  let '(neg, s) := match s with
                   | c :: r => if Ascii.eqb c "+" then (false, r) else if Ascii.eqb c "-" then (true, r) else (false, s)
                   | [] => (false, s)
                   end in
  match takewhile isdigit s with
  | [] => None
  | d => let v := value d in
         if (2 ^ 64 <=? v)%N then None
         else Some (if neg then (2 ^ 64 - v) mod 2 ^ 64 else v)%N
  end.

(** ** Functions of std::string *)
(** first position at or behind [pos] whose character has the property (find_first_of,
    find_first_not_of) *)
Fixpoint ffrom (p : ascii -> bool) (s : str) (i : nat) : option nat :=
  match s with [] => None | c :: r => if p c then Some i else ffrom p r (S i) end.
Definition find_first (p : ascii -> bool) (s : str) (pos : nat) : option nat := ffrom p (skipn pos s) pos.
(** last position at or before [pos] (find_last_not_of); [pos] inside the string *)
Fixpoint find_last (p : ascii -> bool) (s : str) (pos : nat) : option nat :=
  match nth_error s pos with
  | Some c => if p c then Some pos else match pos with O => None | S q => find_last p s q end
  | None => match pos with O => None | S q => find_last p s q end
  end.
Definition substr (s : str) (pos len : nat) : str := firstn len (skipn pos s).
(** s[n] for n <= size(); s[size()] is the null character *)
Definition char_at (s : str) (n : nat) : option ascii :=
  match nth_error s n with
  | Some c => Some c
  | None => if Nat.eqb n (List.length s) then Some "000"%char else None
  end.
(** operator< and == of strings: lexicographic, characters as unsigned char *)
Fixpoint str_ltb (a b : str) : bool :=
  match a, b with
  | _, [] => false
  | [], _ :: _ => true
  | x :: a', y :: b' => (N_of_ascii x <? N_of_ascii y)%N || ((N_of_ascii x =? N_of_ascii y)%N && str_ltb a' b')
  end.
Fixpoint str_eqb (a b : str) : bool :=
  match a, b with
  | [], [] => true
  | x :: a', y :: b' => Ascii.eqb x y && str_eqb a' b'
  | _, _ => false
  end.
(** std::lower_bound on an array: bisection *)
Fixpoint lower_bound (fuel : nat) (arr : list str) (first len : nat) (v : str) : nat :=
  match fuel with
  | O => first
  | S f =>
      if Nat.eqb len 0 then first
      else let half := Nat.div2 len in
           if str_ltb (nth (first + half) arr []) v then lower_bound f arr (first + half + 1) (len - half - 1) v
           else lower_bound f arr first half v
  end.

(** ** type.hh:410-439 operator<<: the text written to the stream *)
Definition streamText (a : GeometryType) : str :=
  let d := dec (N.of_nat (gt_dim a)) in
  if isSimplex a then lit "(simplex, " ++ d ++ lit ")"
  else if isCube a then lit "(cube, " ++ d ++ lit ")"
  else if isPyramidT a then lit "(pyramid, 3)"
  else if isPrismT a then lit "(prism, 3)"
  else if gt_none a then lit "(none, " ++ d ++ lit ")"
  else lit "(other [" ++ dec (gt_id a) ++ lit "], " ++ d ++ lit ")".

(** ** dune/python/geometry/type.hh:24-53 to_string.  Line 45: dimension 3 falls through to the
    default branch if none of its cases applies. *)
Definition toString (t : GeometryType) : str :=
  let d := dec (N.of_nat (gt_dim t)) in
  let default :=
    if isSimplex t then lit "simplex(" ++ d ++ lit ")"
    else if isCube t then lit "cube(" ++ d ++ lit ")"
    else lit "general(" ++ dec (gt_id t) ++ lit ", " ++ d ++ lit ")" in
  if gt_none t then lit "none(" ++ d ++ lit ")"
  else match gt_dim t with
       | 0 => lit "vertex"
       | 1 => lit "line"
       | 2 => if isSimplex t then lit "triangle" else lit "quadrilateral"
       | 3 => if isSimplex t then lit "tetrahedron"
              else if isHexahedron t then lit "hexahedron"
              else if isPyramidT t then lit "pyramid"
              else if isPrismT t then lit "prism"
              else default
       | _ => default
       end.

(** ** dune/python/geometry/type.hh:60-191 geometryTypeFromString *)
Inductive Res (A : Type) := Ok (a : A) | Throw | Undef.
Arguments Ok {A} _. Arguments Throw {A}. Arguments Undef {A}.
Definition rbind {A B} (r : Res A) (f : A -> Res B) : Res B := match r with Ok a => f a | Throw => Throw | Undef => Undef end.

(** lines 63-76 *)
Definition constructorNames : list str :=
  map lit ["cube"; "general"; "hexahedron"; "line"; "none"; "prism"; "pyramid"; "quadrilateral"; "simplex"; "tetrahedron"; "triangle"; "vertex"]%string.

Definition num (s : str) : Res N := match stoul s with Some v => Ok v | None => Throw end.
(** conversion of unsigned long to unsigned int *)
Definition u32 (n : N) : N := (n mod 2 ^ 32)%N.
(** type.hh:464: [1 << dim] is a shift of int; [(1 << 31) - 1] overflows *)
Definition cube_c (dim : N) : Res GeometryType :=
  if ((1 <? dim) && (31 <=? dim))%N then Undef else Ok (cube (N.to_nat dim)).
(** lines 77-155: the constructors *)
Definition construct (cIdx : nat) (args : list str) : Res GeometryType :=
  match cIdx, args with
  | 0, [a] => rbind (num a) (fun d => cube_c (u32 d))
  | 1, [a; b] => rbind (num a) (fun id => rbind (num b) (fun dim =>
        (* numTopologies(int): the conversion to int gives a negative number from 2^31 on *)
        if (32 <=? u32 dim)%N then Undef
        else if (numTopologies (N.to_nat (u32 dim)) <=? id)%N then Throw
        else Ok (GT2 (u32 id) (N.to_nat (u32 dim)))))
  | 2, [] => Ok hexahedron
  | 3, [] => Ok line
  | 4, [a] => rbind (num a) (fun d => Ok (none (N.to_nat (u32 d))))
  | 5, [] => Ok prism
  | 6, [] => Ok pyramid
  | 7, [] => Ok quadrilateral
  | 8, [a] => rbind (num a) (fun d => Ok (simplex (N.to_nat (u32 d))))
  | 9, [] => Ok tetrahedron
  | 10, [] => Ok triangle
  | 11, [] => Ok vertex
  | _, _ => Throw
  end.

Definition notspace (c : ascii) : bool := negb (Ascii.eqb c " ").
Definition isparen (c : ascii) : bool := Ascii.eqb c "(".
Definition isend (c : ascii) : bool := Ascii.eqb c "," || Ascii.eqb c ")".

(** lines 166-187: the loop over the arguments; [n] is the position of the character before
    the next argument.  The fuel is not part of the code, see C61_total. *)
Fixpoint argsLoop (fuel : nat) (s : str) (n : nat) (args : list str) : Res (list str) :=
  match fuel with
  | O => Undef
  | S f =>
      match char_at s n with
      | None => Undef
      | Some c =>
          if Ascii.eqb c ")" then Ok args else
          match find_first notspace s (n + 1) with
          | None => Throw
          | Some m =>
              match find_first isend s m with
              | None => Throw
              | Some n => if Nat.eqb n m then Throw else
                  match find_last notspace s (n - 1) with
                  | None => Undef
                  | Some k => if k <? m then Undef else argsLoop f s n (args ++ [substr s m (k - m + 1)])
                  end
              end
          end
      end
  end.

(** lines 156-190 *)
Definition fromString (s : str) : Res GeometryType :=
  let n := find_first isparen s 0 in
  let cName := match n with Some p => substr s 0 p | None => s end in
  let numConstructors := List.length constructorNames in
  let cIdx := lower_bound (S numConstructors) constructorNames 0 numConstructors cName in
  if Nat.eqb cIdx numConstructors || negb (str_eqb (nth cIdx constructorNames []) cName) then Throw
  else rbind (match n with
              | None => Ok []
              | Some p => argsLoop (S (List.length s)) s p []
              end) (construct cIdx).

(** dune/python/geometry/type.hh:218: __hash__ *)
Definition pyHash (t : GeometryType) : N := global_index t.
