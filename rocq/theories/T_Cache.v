(** C39 and C40 (bounds): the quadrature rule cache under every schedule.

    All theorems quantify over the programs of arbitrarily many threads ([prog i]: the requests
    thread i makes, one after the other) and over all interleavings ([reach]).  Bodies may also
    throw at any time. *)
From Coq Require Import NArith ZArith PeanoNat Bool List Lia.
From Verif Require Import M_Type M_TypeIndex M_QuadFactory M_Cache S_Quad P_Type P_Type2 P_QuadFactory
  P_Cache P_Cache2.
Import ListNotations.
Local Open Scope nat_scope.

Definition all_valid (prog : nat -> list Req) : Prop := forall i r, In r (prog i) -> valid r.

Lemma all_valid_forall prog : all_valid prog -> forall i, List.Forall valid (prog i).
Proof. intros V i. apply List.Forall_forall. intros x Hx. exact (V i x Hx). Qed.

(** No execution touches an entry that does not exist, reads a vector that is not completely
    built or re-enters a flag its own thread is working on. *)
Theorem C39_no_undefined_behaviour : forall prog s,
  all_valid prog -> reach prog s -> error s = false.
Proof. intros prog s V R. apply (I_err prog s). apply Inv_reach; [now apply all_valid_forall|exact R]. Qed.
Print Assumptions C39_no_undefined_behaviour.

(** Every table and every rule is completed at most once. *)
Theorem C39_constructed_once : forall prog s,
  all_valid prog -> reach prog s ->
  NoDup (log s) /\ forall c, In c (log s) <-> flag s c = Some FDone.
Proof.
  intros prog s V R. pose proof (Inv_reach prog s (all_valid_forall _ V) R) as J.
  split; [apply (I_nodup _ _ J)|apply (I_log _ _ J)].
Qed.
Print Assumptions C39_constructed_once.

(** At most one thread is inside the body of a flag, and only while the flag is not done. *)
Theorem C39_mutual_exclusion : forall prog s i j f g qs qs',
  all_valid prog -> reach prog s ->
  In f (stack (thr s i)) -> f_mode f = MBody qs ->
  In g (stack (thr s j)) -> f_mode g = MBody qs' ->
  cell (f_req f) (f_stage f) = cell (f_req g) (f_stage g) ->
  i = j /\ flag s (cell (f_req f) (f_stage f)) <> Some FDone.
Proof.
  intros prog s i j f g qs qs' V R Hf Mf Hg Mg E.
  pose proof (Inv_reach prog s (all_valid_forall _ V) R) as J.
  assert (A : flag s (cell (f_req f) (f_stage f)) = Some (FRun i)).
  { apply (I_run _ _ J). exists f, qs. auto. }
  assert (B : flag s (cell (f_req f) (f_stage f)) = Some (FRun j)).
  { apply (I_run _ _ J). exists g, qs'. auto. }
  rewrite A in *. split; [congruence|discriminate].
Qed.
Print Assumptions C39_mutual_exclusion.

(** What has been published never changes again. *)
Theorem C39_published_immutable : forall prog s n s' c,
  all_valid prog -> reach prog s -> exec s n s' ->
  flag s c = Some FDone -> flag s' c = Some FDone /\ built s' c = built s c.
Proof.
  intros prog s n s' c V R E D.
  exact (exec_stable prog s n s' c (Inv_reach prog s (all_valid_forall _ V) R) E D).
Qed.
Print Assumptions C39_published_immutable.

(** The address of a rule determines and is determined by what was asked for. *)
Theorem C39_address : forall r r', valid r -> valid r' ->
  (cell r 3 = cell r' 3 <-> same_rule r r').
Proof.
  intros r r' V V'. unfold same_rule. split.
  - intros E. apply cell_inj in E; try lia. destruct E as (_ & D & Q & I & P).
    specialize (Q ltac:(lia)). specialize (I ltac:(lia)). specialize (P ltac:(lia)).
    repeat split; auto.
    + apply (index_same r r' V V' D). exact I.
    + unfold order_index in P. rewrite <- D in P. destruct (Nat.eqb_spec (rq_dim r) 0); auto.
  - intros (D & Q & T & P). apply (index_same r r' V V' D) in T. cbn [cell].
    rewrite D, Q, T. f_equal. unfold order_index. rewrite D.
    destruct (Nat.eqb_spec (rq_dim r') 0) as [Z0|Z0]; [reflexivity|]. destruct P as [P|P]; [lia|exact P].
Qed.
Print Assumptions C39_address.

(** Every completed call returned the address of a completely built rule, constructed for the
    same dimension, type, order and quadrature type, and all rules that construction used
    were themselves completely built. *)
Theorem C39_results : forall prog s i r c,
  all_valid prog -> reach prog s -> In (r, Some c) (results (thr s i)) ->
  c = cell r 3 /\ flag s c = Some FDone
  /\ exists r', built s c = Some r' /\ valid r' /\ same_rule r r'
       /\ forall q, In q (subs r') -> flag s (cell q 3) = Some FDone.
Proof.
  intros prog s i r c V R H. pose proof (Inv_reach prog s (all_valid_forall _ V) R) as J.
  destruct (I_res _ _ J i r c H) as (E & D & Vr). split; [exact E|]. split; [exact D|].
  destruct (I_kid _ _ J c D) as (r' & k & B & Hk & Ec & V' & _ & Sb).
  exists r'. split; [exact B|]. split; [exact V'|].
  assert (k = 3) by (rewrite E in Ec; apply cell_inj in Ec; try lia; tauto). subst k.
  split; [|exact Sb]. apply C39_address; auto. congruence.
Qed.
Print Assumptions C39_results.

(** Each thread gets one result per request, in order; the results so far, the request it is
    working on and the requests it has not made yet are its program. *)
Theorem C39_results_in_order : forall prog s i,
  all_valid prog -> reach prog s ->
  exists now, map fst (results (thr s i)) ++ now ++ todo (thr s i) = prog i
    /\ (stack (thr s i) = [] -> now = []).
Proof.
  intros prog s i V R. pose proof (Inv_reach prog s (all_valid_forall _ V) R) as J.
  exists (opt_list (outer (stack (thr s i)))). split; [apply (I_prog _ _ J)|].
  intros ->. reflexivity.
Qed.
Print Assumptions C39_results_in_order.

(** No deadlock: as long as some thread has not finished, some thread can make a step that is
    neither undefined behaviour nor the end of a call by an exception. *)
Theorem C39_no_deadlock : forall prog s i,
  all_valid prog -> reach prog s -> (stack (thr s i) <> [] \/ todo (thr s i) <> []) ->
  exists j s', step s j s' /\ error s' = false
    /\ forall r, results (thr s' j) <> results (thr s j) ++ [(r, None)].
Proof.
  intros prog s i V R H. pose proof (Inv_reach prog s (all_valid_forall _ V) R) as J.
  destruct (progress prog s i J) as (j & s' & St & Er & G).
  { intros [A B]. tauto. }
  exists j, s'. split; [exact St|]. split; [|exact G]. rewrite Er. apply (I_err _ _ J).
Qed.
Print Assumptions C39_no_deadlock.

(** Termination: every execution is finite; [costR r] steps are enough for a request. *)
Theorem C39_terminates : forall prog n,
  all_valid prog -> (forall i, n <= i -> prog i = []) ->
  forall k s, exec (init prog) k s -> k <= costs (concat (map prog (seq 0 n))).
Proof.
  intros prog n V F k s H.
  pose proof (exec_bound prog n (all_valid_forall _ V) F k s H) as B. rewrite total_init in B. lia.
Qed.
Print Assumptions C39_terminates.

(** Hence every execution can be completed, and an execution that cannot be continued has
    answered every request of every thread. *)
Theorem C39_completes : forall prog s,
  all_valid prog -> reach prog s -> (forall j s', ~ step s j s') ->
  forall i, map fst (results (thr s i)) = prog i.
Proof.
  intros prog s V R Stuck i. pose proof (Inv_reach prog s (all_valid_forall _ V) R) as J.
  pose proof (I_prog _ _ J i) as P.
  destruct (stack (thr s i)) as [|f st] eqn:Es; destruct (todo (thr s i)) as [|t td] eqn:Et.
  - cbn in P. now rewrite app_nil_r in P.
  - exfalso. destruct (C39_no_deadlock prog s i V R) as (j & s' & St & _); [rewrite Et; now right|].
    exact (Stuck j s' St).
  - exfalso. destruct (C39_no_deadlock prog s i V R) as (j & s' & St & _); [rewrite Es; now left|].
    exact (Stuck j s' St).
  - exfalso. destruct (C39_no_deadlock prog s i V R) as (j & s' & St & _); [rewrite Es; now left|].
    exact (Stuck j s' St).
Qed.
Print Assumptions C39_completes.

(** The nesting: a request only makes requests of smaller rank (twice the dimension, plus one
    for GaussJacobi_n_0), all of them valid. *)
Theorem C39_nested_requests : forall r, valid r -> forall q, In q (subs r) ->
  valid q /\ 2 * rq_dim q + (if Nat.eqb (rq_qt q) 3 then 1 else 0)
             < 2 * rq_dim r + (if Nat.eqb (rq_qt r) 3 then 1 else 0).
Proof.
  intros r V q Hq. split; [|exact (subs_rank r q Hq)].
  pose proof (subs_valid r V) as F. rewrite List.Forall_forall in F. auto.
Qed.
Print Assumptions C39_nested_requests.

(** ** C40: orders out of range *)

(** maxOrder is defined for every type and quadrature type of the library, and at least
    31 - dim. *)
Theorem C40_maxOrder : forall dim t qt, 1 <= dim < 31 -> gt_dim t = dim -> qt < 7 ->
  exists m, maxOrder dim t qt = Some m /\ (31 - Z.of_nat dim <= m <= 127)%Z.
Proof.
  intros dim t qt H D Q. exact (maxOrder_some (mkReq dim t 0 qt) ltac:(cbn; lia) D Q ltac:(cbn; lia)).
Qed.
Print Assumptions C40_maxOrder.

(** A request of order p > maxOrder or p < 0: the documented exception
    QuadratureOrderOutOfRange is never raised; the fourth flag lies outside the vector
    [quadratureOrders].  For every type, quadrature type and order. *)
Theorem C40_out_of_range_undefined : forall r m,
  valid (mkReq (rq_dim r) (rq_t r) 0 (rq_qt r)) -> rq_dim r <> 0 ->
  maxOrder (rq_dim r) (rq_t r) (rq_qt r) = Some m ->
  (rq_p r < 0 \/ m < rq_p r)%Z ->
  exists s, reach (fun i => if Nat.eqb i 0 then [r] else []) s /\ error s = true
    /\ results (thr s 0) = [].
Proof.
  intros r m V Hd Em Hp.
  destruct V as (A & B & C & N1 & Q & _). cbn [rq_dim rq_t rq_p rq_qt] in *.
  destruct (maxOrder_some r A B Q Hd) as (m' & Em' & Bm'). rewrite Em in Em'. injection Em' as Em'. subst m'.
  set (prog := fun i => if Nat.eqb i 0 then [r] else []).
  assert (Li : (local_index (rq_t r) < local_size (rq_dim r))%N).
  { rewrite <- B. apply local_index_lt. split; [lia|]. rewrite B, bit_pow. exact C. }
  assert (Nr : numRules r = Some (m + 1)%Z).
  { unfold numRules. destruct (Nat.eqb_spec (rq_dim r) 0); [lia|]. rewrite Em. cbn. f_equal.
    apply uint_id. lia. }
  (* the schedule: start, (enter, finish) three times, then the access *)
  set (t0 := fun k mo => mkThread [mkFrame r k mo] [] ([] : list (Req * option Cell))).
  assert (R0 : reach prog (init prog)) by constructor.
  assert (R1 := R_step _ _ 0 _ R0 (S_start (init prog) 0 r [] [] eq_refl)).
  set (s1 := mkState _ _ _ _ _) in R1.
  assert (R2 : exists s, reach prog s /\ thr s 0 = t0 1 MAt /\ flag s (cell r 0) = Some FDone
             /\ flag s (cell r 1) = Some FInit /\ flag s (cell r 3) = None /\ error s = false).
  { assert (X := R_step _ _ 0 _ R1 (S_enter s1 0 r 0 [] [] [] eq_refl ltac:(lia) eq_refl eq_refl)).
    set (s2 := mkState _ _ _ _ _) in X.
    assert (Y := R_step _ _ 0 _ X (S_finish s2 0 r 0 [] [] [] eq_refl)).
    eexists. split; [exact Y|]. split; [reflexivity|].
    split; [cbn [flag]; rewrite spawns_cell by lia; apply upd_same|]. split; [|split; reflexivity].
    cbn [flag spawns cell]. rewrite Nat.eqb_refl, (proj2 (Nat.ltb_lt _ _) Q). reflexivity. }
  destruct R2 as (s2 & R2 & T2 & D2 & F2 & N2 & Er2).
  assert (R3 : exists s, reach prog s /\ thr s 0 = t0 2 MAt /\ flag s (cell r 1) = Some FDone
             /\ flag s (cell r 2) = Some FInit /\ flag s (cell r 3) = None /\ error s = false).
  { assert (Rd : readable s2 r 1 = true) by (cbn [readable]; now rewrite D2).
    assert (X := R_step _ _ 0 _ R2 (S_enter s2 0 r 1 [] [] [] T2 ltac:(lia) Rd F2)).
    set (s3 := mkState _ _ _ _ _) in X.
    assert (Y := R_step _ _ 0 _ X (S_finish s3 0 r 1 [] [] [] eq_refl)).
    eexists. split; [exact Y|]. split; [reflexivity|].
    split; [cbn [flag]; rewrite spawns_cell by lia; apply upd_same|]. split; [|split; [exact N2|exact Er2]].
    cbn [flag spawns cell]. rewrite !Nat.eqb_refl, (proj2 (N.ltb_lt _ _) Li). reflexivity. }
  destruct R3 as (s3 & R3 & T3 & D3 & F3 & N3 & Er3).
  assert (R4 : exists s, reach prog s /\ thr s 0 = t0 3 MAt /\ flag s (cell r 2) = Some FDone
             /\ flag s (cell r 3) = None).
  { assert (Rd : readable s3 r 2 = true) by (cbn [readable]; now rewrite D3).
    assert (X := R_step _ _ 0 _ R3 (S_enter s3 0 r 2 [] [] [] T3 ltac:(lia) Rd F3)).
    set (s4 := mkState _ _ _ _ _) in X.
    assert (Y := R_step _ _ 0 _ X (S_finish s4 0 r 2 [] [] [] eq_refl)).
    eexists. split; [exact Y|]. split; [reflexivity|].
    split; [cbn [flag]; rewrite spawns_cell by lia; apply upd_same|].
    cbn [flag spawns cell]. rewrite !Nat.eqb_refl, N.eqb_refl, Nr. cbn [andb].
    assert (Z1 : (Z.leb 0 (order_index r) && Z.ltb (order_index r) (m + 1))%Z = false).
    { unfold order_index. destruct (Nat.eqb_spec (rq_dim r) 0); [lia|].
      apply andb_false_iff. rewrite Z.leb_gt, Z.ltb_ge. lia. }
    rewrite Z1. exact N3. }
  destruct R4 as (s4 & R4 & T4 & D4 & N4).
  assert (X := R_step _ _ 0 _ R4 (S_error s4 0 r 3 [] [] [] T4 ltac:(lia) (or_intror (or_introl N4)))).
  eexists. split; [exact X|]. split; [reflexivity|]. cbn [thr]. now rewrite T4.
Qed.
Print Assumptions C40_out_of_range_undefined.

(** Points are the exception: every order is accepted. *)
Theorem C40_points_any_order : forall p qt, qt < 7 -> valid (mkReq 0 vertex p qt).
Proof.
  intros p qt Q. split; [cbn; lia|]. split; [reflexivity|]. split; [cbn; lia|].
  split; [cbn; discriminate|]. split; [exact Q|]. now left.
Qed.
Print Assumptions C40_points_any_order.

(** none types whose id is not zero (possible with the three argument constructor) share one
    vector although their maximal orders differ: then a request below the maximal order of its
    own type can be out of bounds. *)
Theorem C39_none_ids_refuted :
  exists a b m s, rq_t a = GT3 0 3 true /\ rq_t b = GT3 7 3 true
    /\ maxOrder 3 (rq_t b) (rq_qt b) = Some m /\ (0 <= rq_p b <= m)%Z
    /\ reach (fun i => match i with 0 => [a] | 1 => [b] | _ => [] end) s /\ error s = true.
Proof.
  set (a := mkReq 3 (GT3 0 3 true) 0 0). set (b := mkReq 3 (GT3 7 3 true) 60 0).
  exists a, b, 61%Z.
  set (prog := fun i => match i with 0 => [a] | 1 => [b] | _ => [] end).
  set (sched := [0; 0; 0; 0; 0; 0; 0; 1; 1; 1; 1; 1]).
  assert (E : option_map error (acts sched (init prog)) = Some true) by (vm_compute; reflexivity).
  destruct (acts sched (init prog)) as [s|] eqn:A; [|discriminate]. exists s.
  split; [reflexivity|]. split; [reflexivity|]. split; [vm_compute; reflexivity|].
  split; [unfold b; cbn [rq_p]; lia|].
  split; [eapply acts_reach; [constructor|exact A]|]. cbn in E. congruence.
Qed.
Print Assumptions C39_none_ids_refuted.

(** ** a concrete execution: two threads ask for the same pyramid rule, a third for the line
    rule that its construction needs.  Thread 1 waits for thread 0; one rule is built per
    address. *)
Example C39_example :
  let a := mkReq 3 pyramid 4 0 in
  let b := mkReq 1 line 6 0 in
  let prog := fun i => match i with 0 => [a] | 1 => [a; b] | 2 => [b] | _ => [] end in
  all_valid prog
  /\ option_map (fun s => match act 1 s with None => true | Some _ => false end)
       (acts (repeat 0 8 ++ repeat 1 4) (init prog)) = Some true
  /\ option_map (fun s => (error s, map (fun i => results (thr s i)) [0; 1; 2], log s))
       (acts (repeat 0 8 ++ repeat 1 4 ++ repeat 0 35 ++ repeat 1 8 ++ repeat 2 6) (init prog))
     = Some (false, [[(a, Some (COrder 3 0 1 4))];
                     [(a, Some (COrder 3 0 1 4)); (b, Some (COrder 1 0 0 6))];
                     [(b, Some (COrder 1 0 0 6))]],
             [COrder 3 0 1 4; COrder 1 0 0 6; COrder 2 0 1 4; COrder 1 0 0 4;
              CGeo 1 0 0; CType 1 0; CStatic 1; CGeo 2 0 1; CType 2 0; CStatic 2;
              CGeo 3 0 1; CType 3 0; CStatic 3]).
Proof.
  cbv zeta. split; [|split; vm_compute; reflexivity].
  assert (Va : valid (mkReq 3 pyramid 4 0)).
  { split; [cbn; lia|]. split; [reflexivity|]. split; [cbn; lia|]. split; [cbn; discriminate|].
    split; [cbn; unfold qtSize; lia|]. right. exists 59%Z. split; [vm_compute; reflexivity|cbn; lia]. }
  assert (Vb : valid (mkReq 1 line 6 0)).
  { split; [cbn; lia|]. split; [reflexivity|]. split; [cbn; lia|]. split; [cbn; discriminate|].
    split; [cbn; unfold qtSize; lia|]. right. exists 61%Z. split; [vm_compute; reflexivity|cbn; lia]. }
  intros i r. destruct i as [|[|[|i]]]; cbn; intuition (subst; assumption).
Qed.

(** the nesting under GaussJacobi_n_0, and an order just above the maximum *)
Example C40_example :
  map (fun q => (rq_dim q, rq_p q, rq_qt q)) (subs (mkReq 4 (GT2 0 4) 7 3)) = [(3, 7%Z, 3)]
  /\ map (fun q => (rq_dim q, rq_p q, rq_qt q)) (subs (mkReq 3 pyramid 7 3))
     = [(2, 7%Z, 3); (1, 7%Z, 2)]
  /\ maxOrder 3 hexahedron 0 = Some 61%Z /\ maxOrder 3 tetrahedron 0 = Some 59%Z
  /\ maxOrder 3 tetrahedron 3 = Some 127%Z /\ maxOrder 2 triangle 6 = Some 29%Z.
Proof. repeat split; reflexivity. Qed.
