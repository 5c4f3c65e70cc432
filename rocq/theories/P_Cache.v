(** The quadrature rule cache: the invariant of all executions. *)
From Coq Require Import NArith ZArith PeanoNat Bool List Lia.
From Verif Require Import M_Type M_TypeIndex M_QuadFactory M_Cache S_Quad P_Type P_Type2 P_QuadFactory.
Import ListNotations.
Local Open Scope nat_scope.

(** ** cells *)

Lemma cell_inj r r' k k' : k < 4 -> k' < 4 -> cell r k = cell r' k' ->
  k = k' /\ rq_dim r = rq_dim r' /\ (1 <= k -> rq_qt r = rq_qt r')
  /\ (2 <= k -> local_index (rq_t r) = local_index (rq_t r'))
  /\ (3 <= k -> order_index r = order_index r').
Proof.
  intros H H'. do 4 (destruct k as [|k]; [do 4 (destruct k' as [|k']; [cbn; intros E; inversion E;
    repeat split; auto; lia|]); lia|]). lia.
Qed.

Lemma rank_cell r r' k k' : 1 <= k < 4 -> k' < 4 -> cell r k = cell r' k' -> rank r = rank r'.
Proof.
  intros H H' E. apply cell_inj in E; try lia. destruct E as (_ & A & B & _). unfold rank.
  rewrite A, B by lia. reflexivity.
Qed.

Definition parent (c : Cell) : option Cell :=
  match c with
  | CStatic _ => None
  | CType d _ => Some (CStatic d)
  | CGeo d q _ => Some (CType d q)
  | COrder d q i _ => Some (CGeo d q i)
  end.

Lemma parent_cell r k : S k < 4 -> parent (cell r (S k)) = Some (cell r k).
Proof. intros H. do 3 (destruct k as [|k]; [reflexivity|]). lia. Qed.

Lemma spawns_parent r k c : spawns r k c = true -> parent c = Some (cell r k) /\ k < 3.
Proof.
  destruct k as [|[|[|k]]], c; cbn [spawns]; try discriminate;
    rewrite ?andb_true_iff, ?Nat.eqb_eq, ?N.eqb_eq; intros H; cbn [parent cell].
  - destruct H as [-> _]. split; [reflexivity|lia].
  - destruct H as [[-> ->] _]. split; [reflexivity|lia].
  - destruct H as [[[-> ->] ->] _]. split; [reflexivity|lia].
Qed.

Lemma spawns_cell r k : k < 4 -> spawns r k (cell r k) = false.
Proof. intros H. do 4 (destruct k as [|k]; [reflexivity|]). lia. Qed.

Lemma numRules_range r : valid r ->
  exists n, numRules r = Some n /\ (0 <= order_index r < n)%Z.
Proof.
  intros (A & B & C & N1 & Q & P). unfold numRules, order_index.
  destruct (Nat.eqb_spec (rq_dim r) 0) as [Z0|Z0]; [exists 1%Z; split; [reflexivity|lia]|].
  destruct P as [P|(m & Em & Bm)]; [lia|].
  destruct (maxOrder_some r A B Q Z0) as (m' & Em' & Bm'). rewrite Em' in Em.
  injection Em as Em. rewrite Em'. cbn. exists (uint (m' + 1)). split; [reflexivity|].
  rewrite uint_id by lia. lia.
Qed.

Lemma numRules_index r r' : valid r -> valid r' -> cell r 2 = cell r' 2 -> numRules r = numRules r'.
Proof.
  intros V V' E. apply cell_inj in E; try lia. destruct E as (_ & A & B & C & _).
  unfold numRules. rewrite A.
  destruct (Nat.eqb (rq_dim r') 0); [reflexivity|]. f_equal. rewrite <- A.
  rewrite (maxOrder_index r r' V V'); auto. congruence.
Qed.

(** the vector written under flag k of a request with the same cell contains the next cell *)
Lemma spawns_next r r' k : valid r -> valid r' -> S k < 4 -> cell r' k = cell r k ->
  spawns r' k (cell r (S k)) = true.
Proof.
  intros V V' Hk E. pose proof (cell_inj r' r k k ltac:(lia) ltac:(lia) E) as (_ & A & B & C & _).
  destruct k as [|[|[|k]]]; [| | |lia]; cbn [spawns cell].
  - rewrite A, Nat.eqb_refl. destruct V as (_ & _ & _ & _ & Q & _). now apply Nat.ltb_lt.
  - rewrite A, B, !Nat.eqb_refl by lia. cbn [andb]. apply N.ltb_lt.
    rewrite <- (proj1 (proj2 V)). apply local_index_lt. now apply valid_wf.
  - rewrite A, B, C, !Nat.eqb_refl, N.eqb_refl by lia. cbn [andb].
    rewrite (numRules_index r' r V' V E). destruct (numRules_range r V) as (n & -> & Bn).
    rewrite andb_true_iff, Z.leb_le, Z.ltb_lt. exact Bn.
Qed.

(** ** the invariant *)

Definition fdone (fl : Cell -> option Flag) (c : Cell) : Prop := fl c = Some FDone.

Definition fcond (D : Cell -> Prop) (above : option Req) (f : Frame) : Prop :=
  valid (f_req f) /\ f_stage f <= 4
  /\ (forall k, k < f_stage f -> D (cell (f_req f) k))
  /\ match f_mode f with
     | MAt => above = None
     | MBody qs =>
         f_stage f < 4
         /\ incl qs (body_subs (f_req f) (f_stage f))
         /\ (forall q, above = Some q -> In q (body_subs (f_req f) (f_stage f)))
         /\ (forall q, In q (body_subs (f_req f) (f_stage f)) ->
               In q qs \/ D (cell q 3) \/ above = Some q)
     end.

Fixpoint sok (D : Cell -> Prop) (above : option Req) (st : list Frame) : Prop :=
  match st with
  | [] => True
  | f :: rest => fcond D above f /\ sok D (Some (f_req f)) rest
  end.

Definition running (st : list Frame) (c : Cell) : Prop :=
  exists f qs, In f st /\ f_mode f = MBody qs /\ cell (f_req f) (f_stage f) = c.

Definition opt_list {A} (o : option A) : list A := match o with Some a => [a] | None => [] end.

Record Inv (prog : nat -> list Req) (s : State) : Prop := {
  I_err : error s = false;
  I_st : forall i, sok (fdone (flag s)) None (stack (thr s i));
  I_todo : forall i, List.Forall valid (todo (thr s i));
  I_run : forall c i, flag s c = Some (FRun i) <-> running (stack (thr s i)) c;
  I_par : forall c c', parent c = Some c' -> flag s c <> None -> fdone (flag s) c';
  I_kid : forall c, fdone (flag s) c -> exists r k,
      built s c = Some r /\ k < 4 /\ cell r k = c /\ valid r
      /\ (forall c', spawns r k c' = true -> flag s c' <> None)
      /\ (forall q, In q (body_subs r k) -> fdone (flag s) (cell q 3));
  I_built : forall c, built s c <> None -> fdone (flag s) c;
  I_static : forall d, flag s (CStatic d) <> None;
  I_nodup : NoDup (log s);
  I_log : forall c, In c (log s) <-> fdone (flag s) c;
  I_res : forall i r c, In (r, Some c) (results (thr s i)) ->
      c = cell r 3 /\ fdone (flag s) c /\ valid r;
  I_prog : forall i, map fst (results (thr s i)) ++ opt_list (outer (stack (thr s i)))
                     ++ todo (thr s i) = prog i
}.

Lemma body_subs_in r k q : In q (body_subs r k) -> k = 3 /\ In q (subs r).
Proof. destruct k as [|[|[|[|k]]]]; cbn; tauto. Qed.

Lemma sok_mono (D D' : Cell -> Prop) st : (forall c, D c -> D' c) ->
  forall above, sok D above st -> sok D' above st.
Proof.
  intros M. induction st as [|f rest IH]; intros above H; [exact I|].
  destruct H as [(V & S & P & Q) R]. split; [|now apply IH].
  split; [exact V|]. split; [exact S|]. split; [auto|].
  destruct (f_mode f) as [|qs]; [exact Q|]. destruct Q as (Q1 & Q2 & Q3 & Q4).
  repeat split; auto. intros q Hq. destruct (Q4 q Hq) as [X|[X|X]]; auto.
Qed.

(** every frame below another one is constructing a rule of higher rank *)
Lemma sok_below D above st : sok D above st -> forall q, above = Some q ->
  forall g, In g st -> (exists qs, f_mode g = MBody qs) /\ f_stage g = 3 /\ rank q < rank (f_req g).
Proof.
  revert above. induction st as [|f rest IH]; intros above H q E g Hg; [destruct Hg|].
  destruct H as [(V & St & P & Q) R].
  assert (F : (exists qs, f_mode f = MBody qs) /\ f_stage f = 3 /\ rank q < rank (f_req f)).
  { destruct (f_mode f) as [|qs]; [congruence|]. destruct Q as (Q1 & Q2 & Q3 & Q4).
    destruct (body_subs_in _ _ _ (Q3 q E)) as [A B]. split; [eauto|].
    split; [exact A|now apply subs_rank]. }
  destruct Hg as [<-|Hg]; [exact F|].
  destruct (IH _ R _ eq_refl g Hg) as (A & B & C). split; [exact A|]. split; [exact B|]. lia.
Qed.

Lemma sok_valid D above st : sok D above st -> forall g, In g st -> valid (f_req g) /\ f_stage g <= 4.
Proof.
  revert above. induction st as [|f rest IH]; intros above H g Hg; [destruct Hg|].
  destruct H as [(V & S & _) R]. destruct Hg as [<-|Hg]; [auto|]. eapply IH; eauto.
Qed.

Lemma sok_stage D above st g qs : sok D above st -> In g st -> f_mode g = MBody qs -> f_stage g < 4.
Proof.
  revert above. induction st as [|f rest IH]; intros above H Hg M; [destruct Hg|].
  destruct H as [(V & S & _ & Q) R]. destruct Hg as [<-|Hg]; [|eapply IH; eauto].
  rewrite M in Q. tauto.
Qed.

Lemma running_cons_at r k fs c : running (mkFrame r k MAt :: fs) c <-> running fs c.
Proof.
  split; intros (f & qs & H & M & E).
  - destruct H as [<-|H]; [discriminate|]. now exists f, qs.
  - exists f, qs. split; [now right|auto].
Qed.

Lemma running_cons_body r k qs fs c :
  running (mkFrame r k (MBody qs) :: fs) c <-> cell r k = c \/ running fs c.
Proof.
  split.
  - intros (f & qs' & H & M & E). destruct H as [<-|H]; [left; exact E|]. right. now exists f, qs'.
  - intros [E|(f & qs' & H & M & E)]; [exists (mkFrame r k (MBody qs)), qs; cbn; auto|].
    exists f, qs'. split; [now right|auto].
Qed.

Lemma running_nil c : ~ running [] c.
Proof. intros (f & qs & [] & _). Qed.

(** the cell of the top frame is not being initialised further down the same stack *)
Lemma top_not_below D r k m fs : k < 4 -> sok D None (mkFrame r k m :: fs) -> ~ running fs (cell r k).
Proof.
  intros Hk [_ R] (g & qs & Hg & M & E). cbn [f_req] in R.
  destruct (sok_below _ _ _ R r eq_refl g Hg) as (_ & St & Rk).
  rewrite St in E. apply cell_inj in E as E2; try lia. destruct E2 as (Hk3 & _).
  apply rank_cell in E; lia.
Qed.

Lemma unwind_spec st : forall fl c,
  (running st c -> unwind fl st c = Some FInit) /\ (~ running st c -> unwind fl st c = fl c).
Proof.
  induction st as [|[r k m] rest IH]; intros fl c.
  - split; [intros H; now apply running_nil in H|reflexivity].
  - cbn [unwind f_mode f_req f_stage]. destruct m as [|qs].
    + rewrite running_cons_at. apply IH.
    + rewrite running_cons_body. destruct (IH (upd fl (cell r k) (Some FInit)) c) as [A B].
      split.
      * intros H. assert (Dc : running rest c \/ ~ running rest c).
        { clear. induction rest as [|[r k m] rest IH]; [right; apply running_nil|].
          destruct m; [rewrite running_cons_at; exact IH|]. rewrite running_cons_body.
          destruct (Cell_eq_dec (cell r k) c); tauto. }
        destruct Dc as [Dc|Dc]; [auto|]. rewrite (B Dc). destruct H as [H|H]; [|contradiction].
        unfold upd. destruct (Cell_eq_dec c (cell r k)); congruence.
      * intros H. rewrite B by tauto. unfold upd.
        destruct (Cell_eq_dec c (cell r k)) as [E|E]; [|reflexivity]. exfalso. apply H. left. congruence.
Qed.

Lemma outer_cons f st : st <> [] -> outer (f :: st) = outer st.
Proof.
  intros H. unfold outer. cbn [rev]. destruct (rev st) as [|x l] eqn:E.
  - apply (f_equal (@rev Frame)) in E. rewrite rev_involutive in E. cbn in E. contradiction.
  - reflexivity.
Qed.

Lemma outer_hd f f' st : f_req f = f_req f' -> outer (f :: st) = outer (f' :: st).
Proof.
  intros H. destruct st as [|g st]; [cbn; now rewrite H|].
  now rewrite (outer_cons f (g :: st)), (outer_cons f' (g :: st)) by discriminate.
Qed.

Lemma updT_same f i t : updT f i t i = t.
Proof. unfold updT. destruct (Nat.eq_dec i i); congruence. Qed.
Lemma updT_other f i t j : j <> i -> updT f i t j = f j.
Proof. intros H. unfold updT. destruct (Nat.eq_dec j i); congruence. Qed.
Lemma upd_same {B} (f : Cell -> B) c b : upd f c b c = b.
Proof. unfold upd. destruct (Cell_eq_dec c c); congruence. Qed.
Lemma upd_other {B} (f : Cell -> B) c b c' : c' <> c -> upd f c b c' = f c'.
Proof. intros H. unfold upd. destruct (Cell_eq_dec c' c); congruence. Qed.

Lemma Inv_init prog : (forall i, List.Forall valid (prog i)) -> Inv prog (init prog).
Proof.
  intros V. constructor; cbn; auto.
  - intros c i. split; [|intros H; now apply running_nil in H]. destruct c; discriminate.
  - intros c c' P H. destruct c; cbn in *; congruence.
  - intros c H. unfold fdone in H. destruct c; discriminate.
  - intros c H. congruence.
  - discriminate.
  - constructor.
  - intros c. split; [intros []|]. unfold fdone. destruct c; discriminate.
  - tauto.
Qed.

(** a step that changes neither flags nor the log, only the stack of one thread *)
Lemma Inv_local prog s i t :
  Inv prog s ->
  sok (fdone (flag s)) None (stack t) -> List.Forall valid (todo t) ->
  (forall c, running (stack t) c <-> running (stack (thr s i)) c) ->
  (forall r c, In (r, Some c) (results t) -> c = cell r 3 /\ fdone (flag s) c /\ valid r) ->
  map fst (results t) ++ opt_list (outer (stack t)) ++ todo t = prog i ->
  Inv prog (mkState (flag s) (built s) (log s) (updT (thr s) i t) (error s)).
Proof.
  intros J A B C D E. destruct J. constructor; cbn [flag built log thr error]; auto.
  - intros j. destruct (Nat.eq_dec j i) as [->|N]; [rewrite updT_same; auto|rewrite updT_other by exact N; auto].
  - intros j. destruct (Nat.eq_dec j i) as [->|N]; [rewrite updT_same; auto|rewrite updT_other by exact N; auto].
  - intros c j. destruct (Nat.eq_dec j i) as [->|N]; [rewrite updT_same, C; auto|rewrite updT_other by exact N; auto].
  - intros j. destruct (Nat.eq_dec j i) as [->|N]; [rewrite updT_same; exact D|rewrite updT_other by exact N; apply I_res0].
  - intros j. destruct (Nat.eq_dec j i) as [->|N]; [rewrite updT_same; auto|rewrite updT_other by exact N; auto].
Qed.

Section Steps.
Context (prog : nat -> list Req) (s : State) (J : Inv prog s) (i : nat).

Lemma next_alive r k fs rs res : thr s i = mkThread (mkFrame r k MAt :: fs) rs res -> k < 4 ->
  readable s r k = true /\ flag s (cell r k) <> None /\ flag s (cell r k) <> Some (FRun i).
Proof.
  intros E Hk. pose proof (I_st _ _ J i) as St. rewrite E in St. cbn [stack] in St.
  destruct St as [(V & _ & P & _) R]. cbn [f_req f_stage] in *.
  split; [|split].
  - destruct k as [|k]; [reflexivity|]. unfold readable. now rewrite (P k ltac:(lia)).
  - destruct k as [|k]; [apply (I_static _ _ J)|].
    destruct (I_kid _ _ J _ (P k ltac:(lia))) as (r' & k' & B & Hk' & Ec & V' & Kd & _).
    pose proof (cell_inj r' r k' k Hk' ltac:(lia) Ec) as (Ek & _). subst k'.
    apply Kd. apply spawns_next; auto.
  - intros F. apply (I_run _ _ J) in F. rewrite E in F. cbn [stack] in F.
    rewrite running_cons_at in F. refine (top_not_below (fdone (flag s)) r k MAt fs Hk _ F).
    pose proof (I_st _ _ J i) as St'. now rewrite E in St'.
Qed.

End Steps.

Lemma Inv_step prog s i s' : Inv prog s -> step s i s' -> Inv prog s'.
Proof.
  intros J H. destruct H as
    [ r rs res E
    | r k fs rs res E Hk Rd Fl
    | r k fs rs res E Hk Rd Fl
    | r k fs rs res E Hk Er
    | r k q qs fs rs res E
    | r k fs rs res E
    | r k qs fs rs res r0 E Eo
    | r f fs rs res E
    | r rs res E ];
  pose proof (I_st _ _ J i) as St; pose proof (I_todo _ _ J i) as Td;
  pose proof (I_res _ _ J i) as Rs; pose proof (I_prog _ _ J i) as Pg;
  rewrite E in St, Td, Rs, Pg; cbn [stack todo results] in St, Td, Rs, Pg.
  - (* start *)
    inversion Td as [|? ? V Vs]; subst. apply Inv_local; cbn [stack todo results]; auto.
    + split; [|exact I]. split; [exact V|]. split; [cbn; lia|]. split; [cbn; lia|reflexivity].
    + intros c. rewrite E. cbn [stack]. apply running_cons_at.
  - (* enter *)
    destruct J. constructor; cbn [flag built log thr error]; auto.
    + assert (M : forall c, fdone (flag s) c -> fdone (upd (flag s) (cell r k) (Some (FRun i))) c).
      { intros c Hc. unfold fdone in *. rewrite upd_other; [exact Hc|congruence]. }
      intros j. destruct (Nat.eq_dec j i) as [->|N].
      * rewrite updT_same. cbn [stack].
        destruct St as [(V & S4 & P & _) R]. cbn [f_req f_stage f_mode] in *.
        split; [|eapply sok_mono; [exact M|exact R]].
        split; [exact V|]. split; [exact S4|]. split; [cbn; auto|]. cbn [f_mode f_stage f_req].
        split; [exact Hk|]. split; [apply incl_refl|]. split; [discriminate|]. auto.
      * rewrite updT_other by exact N. eapply sok_mono; [exact M|auto].
    + intros j. destruct (Nat.eq_dec j i) as [->|N]; [rewrite updT_same; auto|rewrite updT_other by exact N; auto].
    + intros c j. destruct (Cell_eq_dec c (cell r k)) as [->|Nc].
      * rewrite upd_same. destruct (Nat.eq_dec j i) as [->|N].
        -- rewrite updT_same. cbn [stack]. rewrite running_cons_body. tauto.
        -- rewrite updT_other by exact N. split; [congruence|]. intros H. apply I_run0 in H. congruence.
      * rewrite upd_other by exact Nc. destruct (Nat.eq_dec j i) as [->|N].
        -- rewrite updT_same. cbn [stack]. rewrite running_cons_body, I_run0, E. cbn [stack].
           rewrite running_cons_at. intuition congruence.
        -- rewrite updT_other by exact N. apply I_run0.
    + intros c c' P H. assert (D : fdone (flag s) c').
      { apply (I_par0 c c' P). intros X. apply H. rewrite upd_other; [exact X|]. intros ->. congruence. }
      unfold fdone in *. rewrite upd_other; [exact D|congruence].
    + intros c Hc. assert (Nc : c <> cell r k).
      { intros ->. unfold fdone in Hc. rewrite upd_same in Hc. discriminate. }
      unfold fdone in Hc. rewrite upd_other in Hc by exact Nc.
      destruct (I_kid0 c Hc) as (r' & k' & A1 & A2 & A3 & A4 & A5 & A6). exists r', k'.
      refine (conj A1 (conj A2 (conj A3 (conj A4 (conj _ _))))).
      * intros c' Hc'. destruct (Cell_eq_dec c' (cell r k)) as [->|N]; [rewrite upd_same; discriminate|].
        rewrite upd_other by exact N. auto.
      * intros q Hq. apply A6 in Hq. unfold fdone in *. rewrite upd_other; [exact Hq|congruence].
    + intros c Hc. apply I_built0 in Hc. unfold fdone in *. rewrite upd_other; [exact Hc|congruence].
    + intros d. destruct (Cell_eq_dec (CStatic d) (cell r k)) as [->|N]; [rewrite upd_same; discriminate|].
      rewrite upd_other by exact N. auto.
    + intros c. rewrite I_log0. unfold fdone. destruct (Cell_eq_dec c (cell r k)) as [->|N].
      * rewrite upd_same, Fl. split; discriminate.
      * rewrite upd_other by exact N. tauto.
    + intros j r' c. destruct (Nat.eq_dec j i) as [->|N].
      * rewrite updT_same. cbn [results]. intros H. destruct (Rs r' c H) as (A & B & C).
        refine (conj A (conj _ C)). unfold fdone in *. rewrite upd_other; [exact B|congruence].
      * rewrite updT_other by exact N. intros H. destruct (I_res0 j r' c H) as (A & B & C).
        refine (conj A (conj _ C)). unfold fdone in *. rewrite upd_other; [exact B|congruence].
    + intros j. destruct (Nat.eq_dec j i) as [->|N]; [|rewrite updT_other by exact N; auto].
      rewrite updT_same. cbn [results stack todo]. rewrite <- Pg. f_equal. f_equal. f_equal.
      now apply outer_hd.
  - (* pass *)
    apply Inv_local; cbn [stack todo results]; auto.
    + destruct St as [(V & S4 & P & Q) R]. cbn [f_req f_stage f_mode] in *. split; [|exact R].
      split; [exact V|]. split; [cbn; lia|]. split; [|reflexivity]. cbn [f_stage f_req].
      intros k' Hk'. destruct (Nat.eq_dec k' k) as [->|N]; [exact Fl|apply P; lia].
    + intros c. rewrite E. cbn [stack]. rewrite !running_cons_at. tauto.
    + rewrite <- Pg. f_equal. f_equal. f_equal. now apply outer_hd.
  - (* error *)
    exfalso. destruct (next_alive prog s J i r k fs rs res E Hk) as (A & B & C).
    destruct Er as [Er|[Er|Er]]; congruence.
  - (* nested call *)
    apply Inv_local; cbn [stack todo results]; auto.
    + destruct St as [(V & S4 & P & Q) R]. cbn [f_req f_stage f_mode] in *.
      destruct Q as (Q1 & Q2 & Q3 & Q4).
      assert (Hq : In q (body_subs r k)) by (apply Q2; now left).
      assert (Vq : valid q).
      { apply body_subs_in in Hq. destruct Hq as [_ Hq]. pose proof (subs_valid r V) as F.
        rewrite List.Forall_forall in F. auto. }
      split; [split; [exact Vq|split; [cbn; lia|split; [cbn; lia|reflexivity]]]|].
      split; [|exact R]. split; [exact V|]. split; [exact S4|]. split; [exact P|].
      cbn [f_req f_stage f_mode]. split; [exact Q1|]. split; [intros x Hx; apply Q2; now right|].
      split; [intros x Hx; inversion Hx; subst x; exact Hq|].
      intros x Hx. destruct (Q4 x Hx) as [[->|X]|[X|X]]; auto. discriminate.
    + intros c. rewrite E. cbn [stack]. rewrite running_cons_at, !running_cons_body. tauto.
    + rewrite <- Pg. f_equal. f_equal. f_equal. rewrite outer_cons by discriminate. now apply outer_hd.
  - (* finish *)
    destruct St as [(V & S4 & P & Q) R]. cbn [f_req f_stage f_mode] in *.
    destruct Q as (Q1 & Q2 & Q3 & Q4).
    assert (Fl : flag s (cell r k) = Some (FRun i)).
    { apply (I_run _ _ J). rewrite E. cbn [stack]. apply running_cons_body. now left. }
    assert (Nb : ~ running fs (cell r k)).
    { apply (top_not_below (fdone (flag s)) r k (MBody []) fs Q1).
      pose proof (I_st _ _ J i) as St'. now rewrite E in St'. }
    assert (Dead : forall c, spawns r k c = true -> flag s c = None).
    { intros c Hc. apply spawns_parent in Hc. destruct Hc as [Pc _].
      destruct (flag s c) eqn:Fc; [|reflexivity]. exfalso.
      assert (X : fdone (flag s) (cell r k)) by (apply (I_par _ _ J c _ Pc); congruence).
      unfold fdone in X. congruence. }
    set (fl' := fun c => if spawns r k c then Some FInit else upd (flag s) (cell r k) (Some FDone) c).
    assert (Fsp : forall c, spawns r k c = true -> fl' c = Some FInit).
    { intros c Hc. unfold fl'. now rewrite Hc. }
    assert (Fc : fl' (cell r k) = Some FDone).
    { unfold fl'. rewrite spawns_cell by exact Q1. apply upd_same. }
    assert (Fo : forall c, spawns r k c = false -> c <> cell r k -> fl' c = flag s c).
    { intros c Hc N. unfold fl'. rewrite Hc. now apply upd_other. }
    assert (M : forall c, fdone (flag s) c -> fdone fl' c).
    { intros c Hc. unfold fdone in *. destruct (spawns r k c) eqn:Sc; [rewrite Dead in Hc; congruence|].
      rewrite Fo; auto. congruence. }
    assert (Alive : forall c, flag s c <> None -> fl' c <> None).
    { intros c Hc. destruct (spawns r k c) eqn:Sc; [rewrite (Fsp c Sc); discriminate|].
      destruct (Cell_eq_dec c (cell r k)) as [->|N]; [rewrite Fc; discriminate|].
      now rewrite (Fo c Sc N). }
    assert (Md : forall c, fdone fl' c -> c = cell r k \/ (fdone (flag s) c /\ spawns r k c = false)).
    { intros c Hc. unfold fdone in *. destruct (spawns r k c) eqn:Sc; [rewrite (Fsp c Sc) in Hc; discriminate|].
      destruct (Cell_eq_dec c (cell r k)) as [->|N]; [now left|]. right. rewrite (Fo c Sc N) in Hc. auto. }
    destruct J. constructor; cbn [flag built log thr error]; auto.
    + intros j. change (sok (fdone fl') None (stack (updT (thr s) i
        {| stack := {| f_req := r; f_stage := S k; f_mode := MAt |} :: fs;
           todo := rs; results := res |} j))).
      destruct (Nat.eq_dec j i) as [->|N].
      * rewrite updT_same. cbn [stack]. split; [|eapply sok_mono; [exact M|exact R]].
        split; [exact V|]. split; [cbn; lia|]. split; [|reflexivity]. cbn [f_req f_stage].
        intros k' Hk'. destruct (Nat.eq_dec k' k) as [->|N]; [exact Fc|apply M, P; lia].
      * rewrite updT_other by exact N. eapply sok_mono; [exact M|auto].
    + intros j. destruct (Nat.eq_dec j i) as [->|N]; [rewrite updT_same; auto|rewrite updT_other by exact N; auto].
    + intros c j. change (fl' c = Some (FRun j) <-> running (stack (updT (thr s) i
        {| stack := {| f_req := r; f_stage := S k; f_mode := MAt |} :: fs;
           todo := rs; results := res |} j)) c).
      assert (X : running (stack (updT (thr s) i
        {| stack := {| f_req := r; f_stage := S k; f_mode := MAt |} :: fs;
           todo := rs; results := res |} j)) c <-> c <> cell r k /\ flag s c = Some (FRun j)).
      { destruct (Nat.eq_dec j i) as [->|N].
        - rewrite updT_same. cbn [stack]. rewrite running_cons_at, I_run0, E. cbn [stack].
          rewrite running_cons_body. split; [|intuition congruence].
          intros H. split; [|tauto]. intros ->. contradiction.
        - rewrite updT_other by exact N. rewrite I_run0. split; [|tauto]. intros H. split; [|exact H].
          intros ->. apply I_run0 in H. congruence. }
      rewrite X. destruct (spawns r k c) eqn:Sc.
      * rewrite (Fsp c Sc), (Dead c Sc). split; [discriminate|intros [_ ?]; discriminate].
      * destruct (Cell_eq_dec c (cell r k)) as [->|N].
        -- rewrite Fc. split; [discriminate|tauto].
        -- rewrite (Fo c Sc N). tauto.
    + intros c c' Pc Hc. change (fl' c <> None) in Hc. change (fdone fl' c').
      destruct (spawns r k c) eqn:Sc.
      * apply spawns_parent in Sc. destruct Sc as [Sc _]. assert (c' = cell r k) by congruence. subst c'.
        exact Fc.
      * apply M. apply (I_par0 c c' Pc). intros X. apply Hc.
        rewrite (Fo c Sc); [exact X|]. intros ->. congruence.
    + intros c Hc. change (fdone fl' c) in Hc. destruct (Md c Hc) as [->|[Hd Sc]].
      * exists r, k. rewrite spawns_cell by exact Q1. rewrite upd_same.
        refine (conj eq_refl (conj Q1 (conj eq_refl (conj V (conj _ _))))).
        -- intros c' Hc'. change (fl' c' <> None). rewrite (Fsp c' Hc'). discriminate.
        -- intros q Hq. change (fdone fl' (cell q 3)). destruct (Q4 q Hq) as [[]|[X|X]]; [auto|discriminate].
      * rewrite Sc. rewrite upd_other by (intros ->; unfold fdone in Hd; congruence).
        destruct (I_kid0 c Hd) as (r' & k' & A1 & A2 & A3 & A4 & A5 & A6). exists r', k'.
      refine (conj A1 (conj A2 (conj A3 (conj A4 (conj _ _))))).
        -- intros c' Hc'. change (fl' c' <> None). auto.
        -- intros q Hq. change (fdone fl' (cell q 3)). auto.
    + intros c Hc. change (fdone fl' c). destruct (spawns r k c) eqn:Sc; [congruence|].
      destruct (Cell_eq_dec c (cell r k)) as [->|N]; [exact Fc|]. rewrite upd_other in Hc by exact N.
      apply M. auto.
    + constructor; [|exact I_nodup0]. rewrite I_log0. unfold fdone. congruence.
    + intros c. change (cell r k = c \/ In c (log s) <-> fdone fl' c). rewrite I_log0. split.
      * intros [<-|X]; [exact Fc|auto].
      * intros X. destruct (Md c X) as [->|[Y _]]; auto.
    + intros j r' c. change (In (r', Some c) (results (updT (thr s) i
        {| stack := {| f_req := r; f_stage := S k; f_mode := MAt |} :: fs;
           todo := rs; results := res |} j)) -> c = cell r' 3 /\ fdone fl' c /\ valid r').
      destruct (Nat.eq_dec j i) as [->|N].
      * rewrite updT_same. cbn [results]. intros H. destruct (Rs r' c H) as (A & B & C). auto.
      * rewrite updT_other by exact N. intros H. destruct (I_res0 j r' c H) as (A & B & C). auto.
    + intros j. destruct (Nat.eq_dec j i) as [->|N]; [|rewrite updT_other by exact N; auto].
      rewrite updT_same. cbn [results stack todo]. rewrite <- Pg. f_equal. f_equal. f_equal.
      now apply outer_hd.
  - (* exception *)
    set (st := mkFrame r k (MBody qs) :: fs) in *.
    assert (Run : forall c, running st c <-> flag s c = Some (FRun i)).
    { intros c. rewrite (I_run _ _ J), E. reflexivity. }
    assert (U1 : forall c, flag s c = Some (FRun i) -> unwind (flag s) st c = Some FInit).
    { intros c H. apply unwind_spec. now apply Run. }
    assert (U2 : forall c, flag s c <> Some (FRun i) -> unwind (flag s) st c = flag s c).
    { intros c H. apply unwind_spec. now rewrite Run. }
    assert (Fdec : forall c, flag s c = Some (FRun i) \/ flag s c <> Some (FRun i)).
    { intros c. destruct (flag s c) as [[|j|]|]; try (right; discriminate).
      destruct (Nat.eq_dec j i) as [->|]; [now left|right; congruence]. }
    assert (Dn : forall c, fdone (unwind (flag s) st) c <-> fdone (flag s) c).
    { intros c. unfold fdone. destruct (Fdec c) as [F|F]; [rewrite (U1 c F), F; split; discriminate|].
      rewrite (U2 c F). tauto. }
    assert (Al : forall c, unwind (flag s) st c <> None <-> flag s c <> None).
    { intros c. destruct (Fdec c) as [F|F]; [rewrite (U1 c F), F; split; discriminate|].
      rewrite (U2 c F). tauto. }
    destruct J. constructor; cbn [flag built log thr error]; auto.
    + intros j. destruct (Nat.eq_dec j i) as [->|N]; [rewrite updT_same; exact I|].
      rewrite updT_other by exact N. eapply sok_mono; [intros c; apply Dn|auto].
    + intros j. destruct (Nat.eq_dec j i) as [->|N]; [rewrite updT_same; auto|rewrite updT_other by exact N; auto].
    + intros c j. destruct (Nat.eq_dec j i) as [->|N].
      * rewrite updT_same. cbn [stack]. split; [|intros H; now apply running_nil in H].
        destruct (Fdec c) as [F|F]; [rewrite (U1 c F)|rewrite (U2 c F)]; congruence.
      * rewrite updT_other by exact N. rewrite <- I_run0.
        destruct (Fdec c) as [F|F]; [rewrite (U1 c F), F; split; congruence|now rewrite (U2 c F)].
    + intros c c' Pc Hc. apply Dn. apply (I_par0 c c' Pc). now apply Al.
    + intros c Hc. apply Dn in Hc. destruct (I_kid0 c Hc) as (r' & k' & A1 & A2 & A3 & A4 & A5 & A6).
      exists r', k'.
      refine (conj A1 (conj A2 (conj A3 (conj A4 (conj _ _))))).
      * intros c' Hc'. apply Al. auto.
      * intros q Hq. apply Dn. auto.
    + intros c Hc. apply Dn. auto.
    + intros d. apply Al. auto.
    + intros c. rewrite Dn. apply I_log0.
    + intros j r' c. destruct (Nat.eq_dec j i) as [->|N].
      * rewrite updT_same. cbn [results]. rewrite in_app_iff. intros [H|[H|[]]]; [|discriminate].
        destruct (Rs r' c H) as (A & B & C). refine (conj A (conj _ C)). now apply Dn.
      * rewrite updT_other by exact N. intros H. destruct (I_res0 j r' c H) as (A & B & C).
        refine (conj A (conj _ C)). now apply Dn.
    + intros j. destruct (Nat.eq_dec j i) as [->|N]; [|rewrite updT_other by exact N; auto].
      rewrite updT_same. cbn [results stack todo]. rewrite <- Pg. rewrite Eo. rewrite map_app.
      cbn. now rewrite <- app_assoc.
  - (* return *)
    apply Inv_local; cbn [stack todo results]; auto.
    + destruct St as [(V & S4 & P & Q) R]. cbn [f_req f_stage f_mode] in *.
      destruct R as [(V' & S4' & P' & Q') R']. split; [|exact R'].
      split; [exact V'|]. split; [exact S4'|]. split; [exact P'|].
      destruct (f_mode f) as [|qs]; [discriminate|]. destruct Q' as (Q1 & Q2 & Q3 & Q4).
      repeat split; auto; [discriminate|]. intros q Hq. destruct (Q4 q Hq) as [X|[X|X]]; auto.
      inversion X; subst q. right; left. apply P. lia.
    + intros c. rewrite E. cbn [stack]. now rewrite running_cons_at.
    + rewrite <- Pg. now rewrite (outer_cons _ (f :: fs)) by discriminate.
  - (* result *)
    apply Inv_local; cbn [stack todo results]; auto.
    + exact I.
    + intros c. rewrite E. cbn [stack]. now rewrite running_cons_at.
    + intros r' c. rewrite in_app_iff. intros [H|[H|[]]]; [auto|]. inversion H; subst.
      destruct St as [(V & S4 & P & Q) R]. split; [reflexivity|]. split; [|exact V].
      apply (P 3). cbn. lia.
    + rewrite <- Pg. rewrite map_app. cbn. now rewrite <- app_assoc.
Qed.

Lemma Inv_reach prog s : (forall i, List.Forall valid (prog i)) -> reach prog s -> Inv prog s.
Proof.
  intros V H. induction H as [|s i s' R IH St]; [now apply Inv_init|]. eapply Inv_step; eauto.
Qed.
