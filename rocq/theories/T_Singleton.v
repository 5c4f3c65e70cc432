(** C38: TopologySingletonFactory. *)
From Coq Require Import NArith PeanoNat Bool List Lia.
From Verif Require Import M_Type M_TypeIndex M_Singleton.
Import ListNotations.

Section Proofs.
Context (dimension : nat) {Key : Type} (keq : Key -> Key -> bool).
Context (keq_refl : forall k, keq k k = true)
        (keq_sym : forall k l, keq k l = true -> keq l k = true)
        (keq_trans : forall k l m, keq k l = true -> keq l m = true -> keq k m = true).

Local Notation find := (find keq).
Local Notation getObject := (getObject dimension keq).
Local Notation create := (create dimension keq).
Local Notation run := (run dimension keq).
Local Notation St := (@St Key).
Local Notation Call := (@Call Key).

(** Two requests for the same (topology id, key) pair. *)
Definition same_pair (c c' : Call) : Prop :=
  call_id c = call_id c' /\ keq (call_key c) (call_key c') = true.

Lemma find_congr (s : list ((N * Key) * nat)) id k l : keq k l = true -> find s id k = find s id l.
Proof.
  intros E. induction s as [|[[i m] p] s IH]; [reflexivity|]. cbn [M_Singleton.find].
  rewrite IH. replace (keq m k) with (keq m l); [reflexivity|].
  destruct (keq m l) eqn:A, (keq m k) eqn:B; try reflexivity.
  - rewrite (keq_trans m l k A (keq_sym _ _ E)) in B. discriminate.
  - rewrite (keq_trans m k l B E) in A. discriminate.
Qed.

Lemma find_in s id k p : find s id k = Some p -> exists m, In ((id, m), p) s /\ keq m k = true.
Proof.
  induction s as [|[[i m] q] s IH]; cbn [M_Singleton.find]; [discriminate|].
  destruct (N.eqb_spec i id) as [->|N]; [destruct (keq m k) eqn:E|]; cbn [andb].
  - intros H. inversion H; subst. exists m. split; [now left|exact E].
  - intros H. destruct (IH H) as (m' & A & B). exists m'. split; [now right|exact B].
  - intros H. destruct (IH H) as (m' & A & B). exists m'. split; [now right|exact B].
Qed.

Definition SInv (s : St) : Prop :=
  NoDup (map snd (store s)) /\ (forall e, In e (store s) -> snd e < next s).

Lemma SInv_step made c s r s' : SInv s -> getObject made c s = (r, s') -> SInv s'.
Proof.
  intros [A B]. unfold M_Singleton.getObject. destruct (find (store s) (call_id c) (call_key c)).
  { intros H. inversion H; subst. now split. }
  destruct made; intros H; inversion H; subst; split; cbn [store next map snd]; auto.
  - constructor; [|exact A]. intros X. apply in_map_iff in X. destruct X as (e & E & I).
    apply B in I. lia.
  - intros e [<-|I]; [cbn; lia|]. apply B in I. lia.
Qed.

Lemma find_inj s id k id' k' p : SInv s ->
  find (store s) id k = Some p -> find (store s) id' k' = Some p -> id = id' /\ keq k k' = true.
Proof.
  intros [A _] H H'. apply find_in in H. apply find_in in H'.
  destruct H as (m & I & E), H' as (m' & I' & E').
  assert (X : ((id, m), p) = ((id', m'), p)).
  { revert I I' A. clear. induction (store s) as [|e l IH]; intros I I' A; [destruct I|].
    inversion A as [|? ? N ND]; subst. destruct I as [->|I], I' as [I'|I'].
    - now symmetry.
    - exfalso. apply N. cbn. apply (in_map snd) in I'. exact I'.
    - exfalso. apply N. rewrite I'. apply (in_map snd) in I. exact I.
    - now apply IH. }
  inversion X; subst. split; [reflexivity|]. eapply keq_trans; [apply keq_sym; exact E|exact E'].
Qed.

Lemma find_stable made c s r s' id k p : getObject made c s = (r, s') ->
  find (store s) id k = Some p -> find (store s') id k = Some p.
Proof.
  unfold M_Singleton.getObject. destruct (find (store s) (call_id c) (call_key c)) as [q|] eqn:F.
  { intros H. now inversion H; subst. }
  destruct made; intros H P; inversion H; subst; cbn [store]; auto. cbn [M_Singleton.find].
  destruct (N.eqb_spec (call_id c) id) as [N|N]; cbn [andb]; [|exact P].
  destruct (keq (call_key c) k) eqn:E; [|exact P].
  rewrite N, (find_congr _ _ _ _ E) in F. congruence.
Qed.

Lemma getObject_ptr made c s p s' : getObject made c s = (RPtr p, s') ->
  find (store s') (call_id c) (call_key c) = Some p.
Proof.
  unfold M_Singleton.getObject. destruct (find (store s) (call_id c) (call_key c)) as [q|] eqn:F.
  { intros H. now inversion H; subst. }
  destruct made; intros H; inversion H; subst; cbn [store M_Singleton.find].
  now rewrite N.eqb_refl, keq_refl.
Qed.

Lemma getObject_hit made c s p : find (store s) (call_id c) (call_key c) = Some p ->
  getObject made c s = (RPtr p, s).
Proof. intros H. unfold M_Singleton.getObject. now rewrite H. Qed.

Lemma create_ok made c s r s' : create made c s = Some (r, s') -> getObject made c s = (r, s').
Proof. unfold M_Singleton.create. destruct (N.ltb _ _); congruence. Qed.

Lemma run_stable oracle cs : forall n s rs s' id k p,
  run oracle n cs s = Some (rs, s') -> find (store s) id k = Some p -> find (store s') id k = Some p.
Proof.
  induction cs as [|c cs IH]; intros n s rs s' id k p H F; cbn [M_Singleton.run] in H.
  { inversion H; subst. exact F. }
  destruct (create (oracle n) c s) as [[r s1]|] eqn:E; [|discriminate].
  destruct (run oracle (S n) cs s1) as [[rs1 s2]|] eqn:R; [|discriminate]. inversion H; subst.
  apply create_ok in E. eapply IH; [exact R|]. eapply find_stable; eauto.
Qed.

(** every pointer returned is the one stored at the end *)
Lemma run_ptr oracle cs : forall n s rs s' i c p,
  run oracle n cs s = Some (rs, s') -> nth_error cs i = Some c -> nth_error rs i = Some (RPtr p) ->
  find (store s') (call_id c) (call_key c) = Some p.
Proof.
  induction cs as [|c0 cs IH]; intros n s rs s' i c p H C R; cbn [M_Singleton.run] in H.
  { destruct i; discriminate. }
  destruct (create (oracle n) c0 s) as [[r s1]|] eqn:E; [|discriminate].
  destruct (run oracle (S n) cs s1) as [[rs1 s2]|] eqn:Er; [|discriminate]. inversion H; subst.
  apply create_ok in E. destruct i as [|i]; cbn [nth_error] in C, R.
  - inversion C; inversion R; subst. eapply run_stable; [exact Er|]. eapply getObject_ptr; eauto.
  - eapply IH; eauto.
Qed.

Lemma run_SInv oracle cs : forall n s rs s', SInv s -> run oracle n cs s = Some (rs, s') -> SInv s'.
Proof.
  induction cs as [|c cs IH]; intros n s rs s' I H; cbn [M_Singleton.run] in H.
  { inversion H; subst. exact I. }
  destruct (create (oracle n) c s) as [[r s1]|] eqn:E; [|discriminate].
  destruct (run oracle (S n) cs s1) as [[rs1 s2]|] eqn:R; [|discriminate]. inversion H; subst.
  eapply IH; [|exact R]. apply create_ok in E. eapply SInv_step; [exact I|exact E].
Qed.

Lemma SInv0 : SInv st0.
Proof. split; [constructor|intros e []]. Qed.

(** Once a request has returned an object, every later request for the same pair returns the
    same object - whatever the user's factory would do. *)
Theorem C38_same_object : forall oracle cs rs s i j c c' p,
  run oracle 0 cs st0 = Some (rs, s) ->
  nth_error cs i = Some c -> nth_error cs j = Some c' -> i <= j -> same_pair c c' ->
  nth_error rs i = Some (RPtr p) -> nth_error rs j = Some (RPtr p).
Proof.
  intros oracle cs. generalize 0 at 1. generalize (@st0 Key).
  induction cs as [|c0 cs IH]; intros s0 n rs s i j c c' p H C C' L S R; cbn [M_Singleton.run] in H.
  { destruct i; discriminate. }
  destruct (create (oracle n) c0 s0) as [[r s1]|] eqn:E; [|discriminate].
  destruct (run oracle (Datatypes.S n) cs s1) as [[rs1 s2]|] eqn:Er; [|discriminate]. inversion H; subst.
  destruct i as [|i], j as [|j]; cbn [nth_error] in *; try lia.
  - congruence.
  - inversion C; inversion R; subst. apply create_ok in E.
    assert (F : find (store s1) (call_id c') (call_key c') = Some p).
    { destruct S as [S1 S2]. rewrite <- S1, <- (find_congr _ _ _ _ S2). eapply getObject_ptr; eauto. }
    clear - F Er C' keq_refl keq_sym keq_trans. revert n s1 rs1 s j F Er C'.
    induction cs as [|d cs IH]; intros n s1 rs1 s j F Er C'; [destruct j; discriminate|].
    cbn [M_Singleton.run] in Er.
    destruct (create (oracle (S n)) d s1) as [[r1 s3]|] eqn:E; [|discriminate].
    destruct (run oracle (S (S n)) cs s3) as [[rs2 s4]|] eqn:Er2; [|discriminate].
    inversion Er; subst. apply create_ok in E. destruct j as [|j]; cbn [nth_error] in *.
    + inversion C'; subst. rewrite (getObject_hit _ _ _ _ F) in E. now inversion E.
    + eapply IH; [|exact Er2|exact C']. eapply find_stable; eauto.
  - eapply IH; [exact Er|exact C|exact C'|lia|exact S|exact R].
Qed.

(** Different pairs never share an object. *)
Theorem C38_distinct_objects : forall oracle cs rs s i j c c' p,
  run oracle 0 cs st0 = Some (rs, s) ->
  nth_error cs i = Some c -> nth_error cs j = Some c' ->
  nth_error rs i = Some (RPtr p) -> nth_error rs j = Some (RPtr p) -> same_pair c c'.
Proof.
  intros oracle cs rs s i j c c' p H C C' R R'.
  pose proof (run_SInv _ _ _ _ _ _ SInv0 H) as I.
  pose proof (run_ptr _ _ _ _ _ _ _ _ _ H C R) as F.
  pose proof (run_ptr _ _ _ _ _ _ _ _ _ H C' R') as F'.
  exact (find_inj _ _ _ _ _ _ I F F').
Qed.

(** How often the user's factory was called for a pair. *)
Definition creations (s : St) (id : N) (k : Key) : nat :=
  length (filter (fun e => N.eqb (fst (fst e)) id && keq (snd (fst e)) k) (calls s)).
Definition requested (cs : list Call) (id : N) (k : Key) : bool :=
  existsb (fun c => N.eqb (call_id c) id && keq (call_key c) k) cs.

(** With a factory that always returns an object: one call for every pair that was requested,
    none for the others. *)
Theorem C38_created_once : forall oracle cs rs s id k,
  (forall n, oracle n = MObject) ->
  run oracle 0 cs st0 = Some (rs, s) ->
  creations s id k = if requested cs id k then 1 else 0.
Proof.
  intros oracle cs rs s id k O.
  assert (G : forall n s0, (creations s0 id k = if find (store s0) id k then 1 else 0) ->
    run oracle n cs s0 = Some (rs, s) ->
    creations s id k = if find (store s0) id k then 1 else if requested cs id k then 1 else 0).
  { revert rs. induction cs as [|c cs IH]; intros rs n s0 A H; cbn [M_Singleton.run] in H.
    { inversion H; subst. rewrite A. cbn. now destruct (find (store s) id k). }
    destruct (create (oracle n) c s0) as [[r s1]|] eqn:E; [|discriminate].
    destruct (run oracle (S n) cs s1) as [[rs1 s2]|] eqn:Er; [|discriminate]. inversion H; subst.
    apply create_ok in E. rewrite O in E. unfold M_Singleton.getObject in E. cbn [requested existsb].
    destruct (find (store s0) (call_id c) (call_key c)) as [p|] eqn:F.
    - inversion E; subst. rewrite (IH _ _ _ A Er).
      destruct (find (store s1) id k) eqn:G; [reflexivity|].
      destruct (N.eqb_spec (call_id c) id) as [N|N]; cbn [andb orb]; [|reflexivity].
      destruct (keq (call_key c) k) eqn:K; [|reflexivity].
      rewrite N, (find_congr _ _ _ _ K) in F. congruence.
    - inversion E; subst. clear E.
      assert (A1 : creations (mkSt (((call_id c, call_key c), next s0) :: store s0) (S (next s0))
         ((call_id c, call_key c, call_instance dimension c) :: calls s0)) id k
         = if find (((call_id c, call_key c), next s0) :: store s0) id k then 1 else 0).
      { unfold creations in *. cbn [calls filter fst snd M_Singleton.find].
        destruct (N.eqb_spec (call_id c) id) as [N|N]; cbn [andb]; [|exact A].
        destruct (keq (call_key c) k) eqn:K; [|exact A].
        cbn [length]. rewrite A. rewrite N, (find_congr _ _ _ _ K) in F. now rewrite F. }
      rewrite (IH _ _ _ A1 Er). cbn [store M_Singleton.find].
      destruct (N.eqb_spec (call_id c) id) as [N|N]; cbn [andb orb]; [|reflexivity].
      destruct (keq (call_key c) k) eqn:K; [|reflexivity].
      rewrite N, (find_congr _ _ _ _ K) in F. now rewrite F. }
  intros H. exact (G 0 st0 eq_refl H).
Qed.

(** Whatever the factory does, it is not called again for a pair whose object exists. *)
Theorem C38_not_recreated : forall made c s r s' p,
  find (store s) (call_id c) (call_key c) = Some p ->
  create made c s = Some (r, s') -> r = RPtr p /\ s' = s.
Proof.
  intros made c s r s' p F E. apply create_ok in E. rewrite (getObject_hit _ _ _ _ F) in E.
  now inversion E.
Qed.

(** A sequence of calls is fine exactly if all topology ids are below 2^dimension. *)
Theorem C38_precondition : forall oracle cs,
  (exists rs s, run oracle 0 cs st0 = Some (rs, s) /\ length rs = length cs)
  <-> (forall c, In c cs -> (call_id c < 2 ^ N.of_nat dimension)%N).
Proof.
  intros oracle cs. generalize 0, (@st0 Key).
  assert (B : bit dimension = (2 ^ N.of_nat dimension)%N) by (unfold bit; now rewrite N.shiftl_1_l).
  induction cs as [|c cs IH]; intros n s; cbn [M_Singleton.run].
  - split; [intros _ c []|]. intros _. exists [], s. now split.
  - split.
    + intros (rs & s' & H & L). destruct (create (oracle n) c s) as [[r s1]|] eqn:E; [|discriminate].
      destruct (run oracle (S n) cs s1) as [[rs1 s2]|] eqn:Er; [|discriminate]. inversion H; subst.
      intros d [<-|D].
      * unfold M_Singleton.create in E. destruct (N.ltb_spec (call_id c) (bit dimension)); [|discriminate].
        now rewrite <- B.
      * revert d D. apply (IH (S n) s1). exists rs1, s'. split; [exact Er|]. cbn in L. lia.
    + intros H. unfold M_Singleton.create. rewrite B.
      destruct (N.ltb_spec (call_id c) (2 ^ N.of_nat dimension)) as [L|L].
      2:{ specialize (H c (or_introl eq_refl)). lia. }
      destruct (getObject (oracle n) c s) as [r s1].
      destruct (proj2 (IH (S n) s1)) as (rs1 & s2 & -> & L1); [intros d D; apply H; now right|].
      exists (r :: rs1), s2. split; [reflexivity|]. cbn. now rewrite L1.
Qed.

End Proofs.
Print Assumptions C38_same_object.
Print Assumptions C38_distinct_objects.
Print Assumptions C38_created_once.
Print Assumptions C38_not_recreated.
Print Assumptions C38_precondition.

(** "Exactly once" is false for a factory that returns a null pointer: it is called by every
    request. *)
Theorem C38_null_recreated_refuted :
  exists (cs : list (@Call nat)) s, run 2 Nat.eqb (fun _ => MNull) 0 cs st0 = Some ([RNull; RNull], s)
    /\ creations Nat.eqb s 0 7 = 2.
Proof.
  exists [Dynamic triangle 7; Dynamic triangle 7]. eexists. split; reflexivity.
Qed.
Print Assumptions C38_null_recreated_refuted.

(** Geometry types that compare equal need not get the same object: the storage is indexed by
    the raw id, whose lowest bit the comparison ignores.  Both objects are instances of the
    same topology. *)
Theorem C38_equal_types_share_refuted :
  exists (s t : GeometryType) rs st, gt_eqb s t = true
    /\ call_instance 2 (Dynamic s 7) = call_instance 2 (Dynamic t 7)
    /\ run 2 Nat.eqb (fun _ => MObject) 0 [Dynamic s 7; Dynamic t 7] st0 = Some (rs, st)
    /\ rs = [RPtr 0; RPtr 1].
Proof.
  exists (GT2 0 2), (GT2 1 2), [RPtr 0; RPtr 1]. eexists. repeat split; reflexivity.
Qed.
Print Assumptions C38_equal_types_share_refuted.

(** a mixed sequence: dynamic and static requests share the storage *)
Example C38_example :
  run 3 Nat.eqb (fun n => if Nat.eqb n 2 then MThrow else MObject) 0
    [Dynamic pyramid 5; StaticTopology 3 5; Dynamic prism 5; Dynamic prism 5;
     StaticGeometry (toId prism) 5; Dynamic prism 6] st0
  = Some ([RPtr 0; RPtr 0; RThrow; RPtr 1; RPtr 1; RPtr 2],
          mkSt [((5%N, 6), 2); ((5%N, 5), 1); ((3%N, 5), 0)] 3
               [(5%N, 6, IGeometry (toId (GT2 4 3))); (5%N, 5, IGeometry (toId (GT2 4 3)));
                (5%N, 5, IGeometry (toId (GT2 4 3))); (3%N, 5, IGeometry (toId (GT2 2 3)))]).
Proof. reflexivity. Qed.
