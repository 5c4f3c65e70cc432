(** The quadrature rule cache: stability of published cells, progress, termination. *)
From Coq Require Import NArith ZArith PeanoNat Bool List Lia.
From Verif Require Import M_Type M_TypeIndex M_QuadFactory M_Cache S_Quad P_Type P_Type2 P_QuadFactory
  P_Cache.
Import ListNotations.
Local Open Scope nat_scope.

Lemma step_stable prog s i s' c : Inv prog s -> step s i s' -> fdone (flag s) c ->
  fdone (flag s') c /\ built s' c = built s c.
Proof.
  intros J H D. unfold fdone in *. destruct H as
    [ r rs res E
    | r k fs rs res E Hk Rd Fl
    | r k fs rs res E Hk Rd Fl
    | r k fs rs res E Hk Er
    | r k q qs fs rs res E
    | r k fs rs res E
    | r k qs fs rs res r0 E Eo
    | r f fs rs res E
    | r rs res E ]; cbn [flag built]; auto.
  - split; [|reflexivity]. rewrite upd_other; [exact D|congruence].
  - assert (Fl : flag s (cell r k) = Some (FRun i)).
    { apply (I_run _ _ J). rewrite E. cbn [stack]. apply running_cons_body. now left. }
    destruct (spawns r k c) eqn:Sc.
    { exfalso. apply spawns_parent in Sc. destruct Sc as [Pc _].
      assert (X : fdone (flag s) (cell r k)) by (apply (I_par _ _ J c _ Pc); congruence).
      unfold fdone in X. congruence. }
    assert (N : c <> cell r k) by congruence. now rewrite !upd_other by exact N.
  - split; [|reflexivity].
    rewrite (proj2 (unwind_spec (mkFrame r k (MBody qs) :: fs) (flag s) c)); [exact D|].
    intros R. assert (F : flag s c = Some (FRun i)).
    { apply (I_run _ _ J). rewrite E. exact R. }
    congruence.
Qed.

(** Executions, with their length. *)
Inductive exec (s : State) : nat -> State -> Prop :=
| E_nil : exec s 0 s
| E_step : forall n s1 i s2, exec s n s1 -> step s1 i s2 -> exec s (S n) s2.

Lemma exec_reach prog s n s' : reach prog s -> exec s n s' -> reach prog s'.
Proof. intros R H. induction H; [exact R|]. econstructor; eauto. Qed.

Lemma reach_exec prog s : reach prog s -> exists n, exec (init prog) n s.
Proof.
  intros H. induction H as [|s i s' R [n IH] St]; [exists 0; constructor|].
  exists (S n). econstructor; eauto.
Qed.

Lemma exec_stable prog s n s' c : Inv prog s -> exec s n s' -> fdone (flag s) c ->
  fdone (flag s') c /\ built s' c = built s c.
Proof.
  intros J H D. assert (X : Inv prog s' /\ fdone (flag s') c /\ built s' c = built s c); [|tauto].
  induction H as [|n s1 i s2 H IH St]; [auto|].
  destruct (IH) as (J1 & D1 & B1). destruct (step_stable prog s1 i s2 c J1 St D1) as [D2 B2].
  split; [eapply Inv_step; eauto|]. split; [exact D2|congruence].
Qed.

(** ** progress *)

Definition finished (t : Thread) : Prop := stack t = [] /\ todo t = [].

(** a step that neither is an error nor ends with an exception *)
Definition good_step (s : State) (i : nat) (s' : State) : Prop :=
  step s i s' /\ error s' = error s
  /\ forall r, results (thr s' i) <> results (thr s i) ++ [(r, None)].

Lemma app_last_neq {A} (l : list A) x : l <> l ++ [x].
Proof. intros H. apply (f_equal (@length A)) in H. rewrite app_length in H. cbn in H. lia. Qed.

Lemma good_body s i r k qs fs rs res :
  thr s i = mkThread (mkFrame r k (MBody qs) :: fs) rs res -> exists s', good_step s i s'.
Proof.
  intros E. destruct qs as [|q qs].
  - eexists. split; [eapply S_finish; exact E|]. split; [reflexivity|]. cbn [thr].
    rewrite updT_same, E. intros r0. apply app_last_neq.
  - eexists. split; [eapply S_call; exact E|]. split; [reflexivity|]. cbn [thr].
    rewrite updT_same, E. intros r0. apply app_last_neq.
Qed.

Lemma progress_stack prog s : Inv prog s -> forall n i f fs,
  rank (f_req f) < n -> stack (thr s i) = f :: fs -> exists j s', good_step s j s'.
Proof.
  intros J n. induction n as [|n IH]; intros i f fs Rn Es; [lia|].
  destruct (thr s i) as [st rs res] eqn:E. cbn [stack] in Es. subst st.
  destruct f as [r k m]. cbn [f_req] in Rn.
  destruct m as [|qs]; [|exists i; eapply good_body; exact E].
  pose proof (I_st _ _ J i) as St. rewrite E in St. cbn [stack] in St.
  destruct St as [(V & S4 & P & _) R]. cbn [f_req f_stage] in *.
  destruct (Nat.eq_dec k 4) as [->|N].
  { exists i. destruct fs as [|g fs].
    - eexists. split; [eapply S_result; exact E|]. split; [reflexivity|]. cbn [thr].
      rewrite updT_same, E. cbn [results]. intros r0 X. apply app_inv_head in X. inversion X.
    - eexists. split; [eapply S_return; exact E|]. split; [reflexivity|]. cbn [thr].
      rewrite updT_same, E. intros r0. apply app_last_neq. }
  assert (Hk : k < 4) by lia.
  destruct (next_alive prog s J i r k fs rs res E Hk) as (Rd & Al & Nr).
  destruct (flag s (cell r k)) as [[|j|]|] eqn:Fl; [| | |congruence].
  - exists i. eexists. split; [eapply S_enter; eauto|]. split; [reflexivity|]. cbn [thr].
    rewrite updT_same, E. intros r0. apply app_last_neq.
  - (* another thread is at work *)
    apply (I_run _ _ J) in Fl. destruct Fl as (g & qs & Hg & Mg & Ec).
    destruct (thr s j) as [stj rsj resj] eqn:Ej. cbn [stack] in Hg.
    destruct stj as [|h hs]; [destruct Hg|].
    pose proof (I_st _ _ J j) as Sj. rewrite Ej in Sj. cbn [stack] in Sj.
    destruct Hg as [->|Hg].
    + destruct g as [rg kg mg]. cbn in Mg. subst mg. exists j. eapply good_body; exact Ej.
    + destruct Sj as [_ Rj]. destruct (sok_below _ _ _ Rj _ eq_refl g Hg) as (_ & St & Rk).
      apply (IH j h hs); [|now rewrite Ej]. rewrite St in Ec.
      apply cell_inj in Ec as Ek; try lia. destruct Ek as (Ek & _). subst k.
      apply rank_cell in Ec; lia.
  - exists i. eexists. split; [eapply S_pass; eauto|]. split; [reflexivity|]. cbn [thr].
    rewrite updT_same, E. intros r0. apply app_last_neq.
Qed.

Lemma progress prog s i : Inv prog s -> ~ finished (thr s i) -> exists j s', good_step s j s'.
Proof.
  intros J H. destruct (thr s i) as [st rs res] eqn:E. destruct st as [|f fs].
  - destruct rs as [|r rs]; [exfalso; apply H; now split|].
    exists i. eexists. split; [eapply S_start; exact E|]. split; [reflexivity|]. cbn [thr].
    rewrite updT_same, E. intros r0. apply app_last_neq.
  - eapply (progress_stack prog s J (S (rank (f_req f))) i f fs); [lia|now rewrite E].
Qed.

(** ** termination *)

Fixpoint cost (n : nat) (r : Req) : nat :=
  match n with 0 => 0 | S m => 10 + list_sum (map (cost m) (subs r)) end.
Definition costR (r : Req) : nat := cost (S (rank r)) r.
Definition costs (rs : list Req) : nat := list_sum (map costR rs).

Lemma cost_fuel n : forall r m, rank r < n -> rank r < m -> cost n r = cost m r.
Proof.
  induction n as [|n IH]; intros r m Hn Hm; [lia|]. destruct m as [|m]; [lia|]. cbn [cost].
  f_equal. f_equal. apply map_ext_in. intros q Hq. apply subs_rank in Hq. apply IH; lia.
Qed.

Lemma costR_eq r : costR r = 10 + costs (subs r).
Proof.
  unfold costR at 1. cbn [cost]. f_equal. unfold costs. f_equal. apply map_ext_in. intros q Hq.
  apply subs_rank in Hq. unfold costR. apply cost_fuel; lia.
Qed.

Definition remAt (k : nat) (r : Req) : nat :=
  2 * (4 - k) + (if Nat.leb k 3 then costs (subs r) else 0) + 1.
Definition remF (f : Frame) : nat :=
  match f_mode f with
  | MAt => remAt (f_stage f) (f_req f)
  | MBody qs => costs qs + 1 + remAt (S (f_stage f)) (f_req f)
  end.
Definition remT (t : Thread) : nat := list_sum (map remF (stack t)) + costs (todo t).

Lemma remF_pos f : 1 <= remF f.
Proof. unfold remF, remAt. destruct (f_mode f); lia. Qed.

Lemma step_measure s i s' : error s' = false -> step s i s' ->
  remT (thr s' i) < remT (thr s i) /\ forall j, j <> i -> thr s' j = thr s j.
Proof.
  intros Er H. destruct H as
    [ r rs res E
    | r k fs rs res E Hk Rd Fl
    | r k fs rs res E Hk Rd Fl
    | r k fs rs res E Hk X
    | r k q qs fs rs res E
    | r k fs rs res E
    | r k qs fs rs res r0 E Eo
    | r f fs rs res E
    | r rs res E ]; cbn [thr error] in *; try discriminate;
    (split; [rewrite updT_same, E; unfold remT; cbn [stack todo]|
             intros j Hj; now rewrite updT_other]).
  - cbn [map list_sum]. unfold list_sum. cbn [fold_right]. unfold costs at 2. cbn [map].
    unfold list_sum. cbn [fold_right]. rewrite costR_eq. fold (costs rs).
    change (fold_right Nat.add 0 (map costR rs)) with (costs rs).
    unfold remF. cbn [f_mode f_stage f_req]. unfold remAt. cbn [Nat.leb Nat.sub]. lia.
  - cbn [map]. unfold list_sum. cbn [fold_right].
    assert (Y : remF (mkFrame r k (MBody (body_subs r k))) < remF (mkFrame r k MAt)); [|lia].
    unfold remF. cbn [f_mode f_stage f_req]. unfold remAt.
    do 4 (destruct k as [|k]; [cbn [body_subs Nat.leb Nat.sub costs map list_sum]; try lia;
      unfold costs at 1; cbn [map]; unfold list_sum; cbn [fold_right]; lia|]). lia.
  - cbn [map]. unfold list_sum. cbn [fold_right].
    assert (Y : remF (mkFrame r (S k) MAt) < remF (mkFrame r k MAt)); [|lia].
    unfold remF. cbn [f_mode f_stage f_req]. unfold remAt.
    destruct (Nat.leb_spec k 3); [|lia]. destruct (Nat.leb_spec (S k) 3); lia.
  - cbn [map]. unfold list_sum. cbn [fold_right].
    assert (Y : remF (mkFrame q 0 MAt) + remF (mkFrame r k (MBody qs))
                < remF (mkFrame r k (MBody (q :: qs)))); [|lia].
    unfold remF. cbn [f_mode f_stage f_req]. unfold costs at 2. cbn [map]. unfold list_sum.
    cbn [fold_right]. change (fold_right Nat.add 0 (map costR qs)) with (costs qs).
    rewrite costR_eq. unfold remAt at 1. cbn [Nat.leb Nat.sub]. lia.
  - cbn [map]. unfold list_sum. cbn [fold_right].
    assert (Y : remF (mkFrame r (S k) MAt) < remF (mkFrame r k (MBody []))); [|lia].
    unfold remF. cbn [f_mode f_stage f_req]. lia.
  - cbn [map]. unfold list_sum. cbn [fold_right]. pose proof (remF_pos (mkFrame r k (MBody qs))). lia.
  - cbn [map]. unfold list_sum. cbn [fold_right]. pose proof (remF_pos (mkFrame r 4 MAt)). lia.
  - cbn [map]. unfold list_sum. cbn [fold_right]. pose proof (remF_pos (mkFrame r 4 MAt)). lia.
Qed.

Lemma outer_some f st : outer (f :: st) <> None.
Proof.
  unfold outer. destruct (rev (f :: st)) as [|x l] eqn:E; [|discriminate].
  apply (f_equal (@rev Frame)) in E. rewrite rev_involutive in E. discriminate.
Qed.

Lemma idle prog s i : Inv prog s -> prog i = [] -> finished (thr s i).
Proof.
  intros J P. pose proof (I_prog _ _ J i) as H. rewrite P in H.
  apply app_eq_nil in H. destruct H as [_ H]. apply app_eq_nil in H. destruct H as [A B].
  split; [|exact B]. destruct (stack (thr s i)) as [|f st]; [reflexivity|].
  exfalso. apply (outer_some f st). destruct (outer (f :: st)); [discriminate|reflexivity].
Qed.

Lemma finished_no_step s i s' : finished (thr s i) -> ~ step s i s'.
Proof.
  intros [A B] H. destruct H; rewrite H in A, B; cbn [stack todo] in A, B; discriminate.
Qed.

Definition total (n : nat) (s : State) : nat := list_sum (map (fun i => remT (thr s i)) (seq 0 n)).

Lemma total_split n s i : i < n ->
  total n s = remT (thr s i) + list_sum (map (fun j => remT (thr s j)) (remove Nat.eq_dec i (seq 0 n))).
Proof.
  intros H. unfold total.
  assert (G : forall l, NoDup l -> In i l ->
    list_sum (map (fun j => remT (thr s j)) l)
    = remT (thr s i) + list_sum (map (fun j => remT (thr s j)) (remove Nat.eq_dec i l))).
  { induction l as [|a l IH]; intros ND Hi; [destruct Hi|]. inversion ND; subst.
    cbn [map remove]. destruct (Nat.eq_dec i a) as [->|N].
    - unfold list_sum. cbn [fold_right]. rewrite notin_remove by assumption. reflexivity.
    - cbn [map]. unfold list_sum. cbn [fold_right].
      destruct Hi as [Hi|Hi]; [congruence|]. specialize (IH ltac:(assumption) Hi).
      unfold list_sum in IH. rewrite IH. lia. }
  apply G; [apply seq_NoDup|]. apply in_seq. lia.
Qed.

Lemma exec_bound prog n : (forall i, List.Forall valid (prog i)) -> (forall i, n <= i -> prog i = []) ->
  forall k s, exec (init prog) k s -> k + total n s <= total n (init prog).
Proof.
  intros V F k s H. induction H as [|k s1 i s2 H IH St]; [lia|].
  assert (J1 : Inv prog s1) by (apply Inv_reach; [exact V|]; eapply exec_reach; [constructor|eassumption]).
  assert (J2 : Inv prog s2) by (eapply Inv_step; eauto).
  destruct (le_lt_dec n i) as [L|L].
  { exfalso. eapply finished_no_step; [|exact St]. eapply idle; eauto. }
  destruct (step_measure s1 i s2 (I_err _ _ J2) St) as [M O].
  rewrite (total_split n s1 i L) in IH. rewrite (total_split n s2 i L).
  replace (map (fun j => remT (thr s2 j)) (remove Nat.eq_dec i (seq 0 n)))
    with (map (fun j => remT (thr s1 j)) (remove Nat.eq_dec i (seq 0 n))); [lia|].
  apply map_ext_in. intros j Hj. rewrite O; [reflexivity|]. apply in_remove in Hj. tauto.
Qed.

Lemma total_init prog n : total n (init prog) = costs (concat (map prog (seq 0 n))).
Proof.
  change (total n (init prog))
    with (list_sum (map (fun i => remT (mkThread [] (prog i) [])) (seq 0 n))).
  induction (seq 0 n) as [|a l IH]; [reflexivity|]. cbn [map concat].
  change (list_sum (remT (mkThread [] (prog a) [])
    :: map (fun i => remT (mkThread [] (prog i) [])) l))
    with (remT (mkThread [] (prog a) []) + list_sum (map (fun i => remT (mkThread [] (prog i) [])) l)).
  rewrite IH. unfold costs at 2. rewrite map_app, list_sum_app. reflexivity.
Qed.

(** ** an executable scheduler, for the examples *)

Definition act (i : nat) (s : State) : option State :=
  let set_thr t := updT (thr s) i t in
  let same t := Some (mkState (flag s) (built s) (log s) (set_thr t) (error s)) in
  let rs := todo (thr s i) in let res := results (thr s i) in
  match stack (thr s i) with
  | [] => match rs with
          | [] => None
          | r :: rs' => same (mkThread [mkFrame r 0 MAt] rs' res)
          end
  | mkFrame r k MAt :: fs =>
      if Nat.ltb k 4 then
        if negb (readable s r k) then Some (mkState (flag s) (built s) (log s) (thr s) true)
        else match flag s (cell r k) with
             | None => Some (mkState (flag s) (built s) (log s) (thr s) true)
             | Some FInit =>
                 Some (mkState (upd (flag s) (cell r k) (Some (FRun i))) (built s) (log s)
                         (set_thr (mkThread (mkFrame r k (MBody (body_subs r k)) :: fs) rs res))
                         (error s))
             | Some FDone => same (mkThread (mkFrame r (S k) MAt :: fs) rs res)
             | Some (FRun j) =>
                 if Nat.eqb j i then Some (mkState (flag s) (built s) (log s) (thr s) true) else None
             end
      else if Nat.eqb k 4 then
        match fs with
        | [] => same (mkThread [] rs (res ++ [(r, Some (cell r 3))]))
        | f :: fs' => same (mkThread (f :: fs') rs res)
        end
      else None
  | mkFrame r k (MBody []) :: fs =>
      Some (mkState (fun c => if spawns r k c then Some FInit
                              else upd (flag s) (cell r k) (Some FDone) c)
                    (fun c => if spawns r k c then None
                              else upd (built s) (cell r k) (Some r) c)
                    (cell r k :: log s)
                    (set_thr (mkThread (mkFrame r (S k) MAt :: fs) rs res)) (error s))
  | mkFrame r k (MBody (q :: qs)) :: fs =>
      same (mkThread (mkFrame q 0 MAt :: mkFrame r k (MBody qs) :: fs) rs res)
  end.

Lemma act_step i s s' : act i s = Some s' -> step s i s'.
Proof.
  unfold act. destruct (thr s i) as [st rs res] eqn:E. cbn [stack todo results].
  destruct st as [|[r k m] fs].
  { destruct rs as [|r rs]; [discriminate|]. intros H. inversion H; subst. eapply S_start; eauto. }
  destruct m as [|[|q qs]].
  - destruct (Nat.ltb_spec k 4) as [Hk|Hk].
    + destruct (readable s r k) eqn:Rd; cbn [negb].
      2:{ intros H. inversion H; subst. eapply S_error; eauto. }
      destruct (flag s (cell r k)) as [[|j|]|] eqn:F.
      * intros H. inversion H; subst. eapply S_enter; eauto.
      * destruct (Nat.eqb_spec j i); [|discriminate]. subst j.
        intros H. inversion H; subst. eapply S_error; eauto.
      * intros H. inversion H; subst. eapply S_pass; eauto.
      * intros H. inversion H; subst. eapply S_error; eauto.
    + destruct (Nat.eqb_spec k 4) as [->|N]; [|discriminate].
      destruct fs as [|f fs]; intros H; inversion H; subst; [eapply S_result|eapply S_return]; eauto.
  - intros H. inversion H; subst. eapply S_finish; eauto.
  - intros H. inversion H; subst. eapply S_call; eauto.
Qed.

Fixpoint acts (sched : list nat) (s : State) : option State :=
  match sched with
  | [] => Some s
  | i :: rest => match act i s with Some s' => acts rest s' | None => None end
  end.

Lemma acts_reach prog sched : forall s s', reach prog s -> acts sched s = Some s' -> reach prog s'.
Proof.
  induction sched as [|i rest IH]; intros s s' R H; cbn [acts] in H; [inversion H; subst; exact R|].
  destruct (act i s) as [s1|] eqn:E; [|discriminate]. eapply IH; [|exact H].
  econstructor; [exact R|]. apply act_step. exact E.
Qed.
