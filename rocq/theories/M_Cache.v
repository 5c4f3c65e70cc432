(** Model of the quadrature rule cache, quadraturerules.hh:275-305 (_rule), under arbitrary
    interleavings: a transition system.

    The memory consists of cells, each guarded by a once flag:
      - [CStatic d]: the function-local static [quadratureCache] of dimension d (line 281;
        its initialisation is synchronised by the language exactly like a call_once);
      - [CType d q]: entry q of it, a once flag and the vector [geometryTypes] (284-287);
      - [CGeo d q i]: entry i of that, a once flag and [quadratureOrders] (289-295);
      - [COrder d q i p]: entry p of that, a once flag and the rule (298-302).
    A cell that is not part of any allocated vector has flag [None]; touching it is an access
    out of bounds.  The body of a call_once writes the vector (which creates the cells it
    consists of) or the rule; it can issue nested calls of rule (lines 301, see [subs]), and
    it can end with an exception, after which the flag can be tried again
    ([thread.once.callonce]).  One step of a thread is one test of a flag, one nested call,
    one end of a body or one return.  The memory model below this level (the
    happens-before edges call_once provides) is not modelled: a read of a vector whose flag
    is not done is reported as an error. *)
From Coq Require Import NArith ZArith PeanoNat Bool List.
From Verif Require Import M_Type M_TypeIndex M_QuadFactory.
Import ListNotations.

Inductive Cell :=
| CStatic (d : nat)
| CType (d q : nat)
| CGeo (d q : nat) (i : N)
| COrder (d q : nat) (i : N) (p : Z).

Definition Cell_eq_dec (a b : Cell) : {a = b} + {a <> b}.
Proof.
  decide equality; first [apply Nat.eq_dec | apply N.eq_dec | apply Z.eq_dec].
Defined.

(** Line 298: [dim == 0 ? 0 : p] *)
Definition order_index (r : Req) : Z := if Nat.eqb (rq_dim r) 0 then 0%Z else rq_p r.

(** The four flags a request passes, in order (lines 281, 285, 291, 300). *)
Definition cell (r : Req) (k : nat) : Cell :=
  let d := rq_dim r in let q := rq_qt r in let i := local_index (rq_t r) in
  match k with
  | 0 => CStatic d
  | 1 => CType d q
  | 2 => CGeo d q i
  | _ => COrder d q i (order_index r)
  end.

(** Line 293: [numRules]; [None] is the exception thrown by maxOrder. *)
Definition numRules (r : Req) : option Z :=
  if Nat.eqb (rq_dim r) 0 then Some 1%Z
  else option_map (fun m => uint (m + 1)) (maxOrder (rq_dim r) (rq_t r) (rq_qt r)).

(** The cells which the body of flag k creates (lines 281, 286, 294). *)
Definition spawns (r : Req) (k : nat) (c : Cell) : bool :=
  match k, c with
  | 0, CType d q => Nat.eqb d (rq_dim r) && Nat.ltb q qtSize
  | 1, CGeo d q i =>
      Nat.eqb d (rq_dim r) && Nat.eqb q (rq_qt r) && N.ltb i (local_size (rq_dim r))
  | 2, COrder d q i p =>
      Nat.eqb d (rq_dim r) && Nat.eqb q (rq_qt r) && N.eqb i (local_index (rq_t r))
      && match numRules r with
         | Some n => Z.leb 0 p && Z.ltb p n
         | None => false
         end
  | _, _ => false
  end.

Inductive Flag := FInit | FRun (thread : nat) | FDone.

(** What a call of rule is doing: about to call call_once on flag number [f_stage] ([4]: about
    to return), or inside the body with these nested requests still to make. *)
Inductive Mode := MAt | MBody (pending : list Req).
Record Frame := mkFrame { f_req : Req; f_stage : nat; f_mode : Mode }.

(** A thread: the stack of its active calls, the requests it will make later, the finished
    ones with the address (cell) of the rule returned, or [None] for an exception. *)
Record Thread := mkThread {
  stack : list Frame;
  todo : list Req;
  results : list (Req * option Cell)
}.

(** The shared state.  [built c]: the request whose body wrote cell c;
    [log]: completed bodies, latest first. *)
Record State := mkState {
  flag : Cell -> option Flag;
  built : Cell -> option Req;
  log : list Cell;
  thr : nat -> Thread;
  error : bool
}.

Definition upd {B} (f : Cell -> B) (c : Cell) (b : B) : Cell -> B :=
  fun c' => if Cell_eq_dec c' c then b else f c'.
Definition updT (f : nat -> Thread) (i : nat) (t : Thread) : nat -> Thread :=
  fun j => if Nat.eq_dec j i then t else f j.

(** Program start: no cell exists except the guard variables of the static locals. *)
Definition init (prog : nat -> list Req) : State :=
  mkState (fun c => match c with CStatic _ => Some FInit | _ => None end)
          (fun _ => None) []
          (fun i => mkThread [] (prog i) []) false.

(** The body of flag number k makes nested calls only for the rule itself (line 301). *)
Definition body_subs (r : Req) (k : nat) : list Req :=
  match k with 3 => subs r | _ => [] end.

(** The vector holding cell k of a request can be read: its own flag is done. *)
Definition readable (s : State) (r : Req) (k : nat) : bool :=
  match k with
  | 0 => true
  | S k' => match flag s (cell r k') with Some FDone => true | _ => false end
  end.

(** An exception leaves all active bodies of the thread; each flag can be tried again. *)
Fixpoint unwind (fl : Cell -> option Flag) (st : list Frame) : Cell -> option Flag :=
  match st with
  | [] => fl
  | f :: rest =>
      match f_mode f with
      | MBody _ => unwind (upd fl (cell (f_req f) (f_stage f)) (Some FInit)) rest
      | MAt => unwind fl rest
      end
  end.

(** The outermost call of a stack. *)
Definition outer (st : list Frame) : option Req := option_map f_req (hd_error (rev st)).

Inductive step (s : State) (i : nat) : State -> Prop :=
(** The thread makes its next request. *)
| S_start : forall r rs res,
    thr s i = mkThread [] (r :: rs) res ->
    step s i (mkState (flag s) (built s) (log s)
                      (updT (thr s) i (mkThread [mkFrame r 0 MAt] rs res)) (error s))
(** call_once on a flag nobody has claimed: run the body. *)
| S_enter : forall r k fs rs res,
    thr s i = mkThread (mkFrame r k MAt :: fs) rs res -> (k < 4)%nat ->
    readable s r k = true -> flag s (cell r k) = Some FInit ->
    step s i (mkState (upd (flag s) (cell r k) (Some (FRun i))) (built s) (log s)
                      (updT (thr s) i
                        (mkThread (mkFrame r k (MBody (body_subs r k)) :: fs) rs res))
                      (error s))
(** call_once on a flag that is done: go on.  (A flag another thread is working on blocks.) *)
| S_pass : forall r k fs rs res,
    thr s i = mkThread (mkFrame r k MAt :: fs) rs res -> (k < 4)%nat ->
    readable s r k = true -> flag s (cell r k) = Some FDone ->
    step s i (mkState (flag s) (built s) (log s)
                      (updT (thr s) i (mkThread (mkFrame r (S k) MAt :: fs) rs res))
                      (error s))
(** Undefined behaviour: the entry does not exist, or the vector is not readable, or the
    thread waits for itself. *)
| S_error : forall r k fs rs res,
    thr s i = mkThread (mkFrame r k MAt :: fs) rs res -> (k < 4)%nat ->
    readable s r k = false \/ flag s (cell r k) = None \/ flag s (cell r k) = Some (FRun i) ->
    step s i (mkState (flag s) (built s) (log s) (thr s) true)
(** A nested call of rule. *)
| S_call : forall r k q qs fs rs res,
    thr s i = mkThread (mkFrame r k (MBody (q :: qs)) :: fs) rs res ->
    step s i (mkState (flag s) (built s) (log s)
                      (updT (thr s) i
                        (mkThread (mkFrame q 0 MAt :: mkFrame r k (MBody qs) :: fs) rs res))
                      (error s))
(** The body ends: the vector or the rule is written and the flag is done. *)
| S_finish : forall r k fs rs res,
    thr s i = mkThread (mkFrame r k (MBody []) :: fs) rs res ->
    step s i (mkState (fun c => if spawns r k c then Some FInit
                                else upd (flag s) (cell r k) (Some FDone) c)
                      (fun c => if spawns r k c then None
                                else upd (built s) (cell r k) (Some r) c)
                      (cell r k :: log s)
                      (updT (thr s) i (mkThread (mkFrame r (S k) MAt :: fs) rs res))
                      (error s))
(** The body ends with an exception, which leaves all calls of the thread. *)
| S_throw : forall r k qs fs rs res r0,
    thr s i = mkThread (mkFrame r k (MBody qs) :: fs) rs res ->
    outer (mkFrame r k (MBody qs) :: fs) = Some r0 ->
    step s i (mkState (unwind (flag s) (mkFrame r k (MBody qs) :: fs)) (built s) (log s)
                      (updT (thr s) i (mkThread [] rs (res ++ [(r0, None)]))) (error s))
(** A nested call returns to the body that made it. *)
| S_return : forall r f fs rs res,
    thr s i = mkThread (mkFrame r 4 MAt :: f :: fs) rs res ->
    step s i (mkState (flag s) (built s) (log s)
                      (updT (thr s) i (mkThread (f :: fs) rs res)) (error s))
(** The outermost call returns the address of the rule (line 304). *)
| S_result : forall r rs res,
    thr s i = mkThread [mkFrame r 4 MAt] rs res ->
    step s i (mkState (flag s) (built s) (log s)
                      (updT (thr s) i (mkThread [] rs (res ++ [(r, Some (cell r 3))])))
                      (error s)).

(** All executions: any thread may make the next step. *)
Inductive reach (prog : nat -> list Req) : State -> Prop :=
| R_init : reach prog (init prog)
| R_step : forall s i s', reach prog s -> step s i s' -> reach prog s'.
