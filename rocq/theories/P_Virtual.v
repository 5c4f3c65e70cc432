(** The heap implements the value semantics. *)
From Coq Require Import NArith PeanoNat Compare_dec Bool List Lia.
From Verif Require Import M_Type M_Virtual S_Virtual.
Import ListNotations.

Lemma setNth_length : forall {A} (l : list A) k a, length (setNth l k a) = length l.
Proof. intros A l. induction l as [|x l IH]; intros [|k] a; cbn; auto. Qed.
Lemma nth_setNth : forall {A} (l : list A) k a j, nth_error (setNth l k a) j = if Nat.eqb j k then (if Nat.ltb k (length l) then Some a else None) else nth_error l j.
Proof.
  intros A l. induction l as [|x l IH]; intros k a j; cbn [setNth].
  - destruct (Nat.eqb_spec j k); [|reflexivity]. destruct j; cbn; destruct (Nat.ltb_spec k 0); try lia; reflexivity.
  - destruct k as [|k], j as [|j]; cbn [nth_error setNth]; try reflexivity. rewrite IH. cbn [Nat.eqb length].
    destruct (Nat.eqb_spec j k); [|reflexivity]. destruct (Nat.ltb_spec k (length l)), (Nat.ltb_spec (S k) (S (length l))); try lia; reflexivity.
Qed.

Section Sim.
Variables (Kind St : Type) (kind_eqb : Kind -> Kind -> bool) (step : Kind -> St -> St) (same : Kind -> St -> St -> bool) (indexOf : Kind -> St -> nat).
Notation Back := (Back Kind St).
Notation Op := (Op Kind St).
Notation VMem := (VMem Kind St).
Notation load := (load Kind St).
Notation vm_var := (vm_var Kind St).
Notation vm_heap := (vm_heap Kind St).
Notation exec := (exec Kind St kind_eqb step same indexOf).
Notation run := (run Kind St kind_eqb step same indexOf).
Notation vexec := (vexec Kind St kind_eqb step same indexOf).
Notation vrun := (vrun Kind St kind_eqb step same indexOf).

(** every variable owns one object, every object is owned by one variable *)
Definition rel (m : VMem) (e : Env Kind St) : Prop :=
  (forall x, match vm_var m x with Some p => e x <> None /\ load m p = e x | None => e x = None end)
  /\ (forall x y p, vm_var m x = Some p -> vm_var m y = Some p -> x = y)
  /\ (forall p b, load m p = Some b -> exists x, vm_var m x = Some p).

Lemma load_alloc : forall m b p, load (fst (alloc Kind St m b)) p = if Nat.eqb p (length (vm_heap m)) then Some b else load m p.
Proof.
  intros m b p. unfold M_Virtual.load, alloc. cbn. destruct (Nat.eqb_spec p (length (vm_heap m))) as [->|N].
  - rewrite nth_error_app2, Nat.sub_diag by lia. reflexivity.
  - destruct (le_lt_dec (length (vm_heap m)) p) as [L|L].
    + rewrite nth_error_app2 by lia. rewrite (proj2 (nth_error_None (vm_heap m) p)) by lia.
      rewrite (proj2 (nth_error_None _ _)); [reflexivity|cbn; lia].
    + rewrite nth_error_app1 by lia. reflexivity.
Qed.
Lemma load_lt : forall m p b, load m p = Some b -> p < length (vm_heap m).
Proof. intros m p b. unfold M_Virtual.load. destruct (nth_error (vm_heap m) p) eqn:E; [|discriminate]. intros _. apply nth_error_Some. congruence. Qed.
Lemma load_set : forall m p o q, p < length (vm_heap m) -> load (mkMem Kind St (setNth (vm_heap m) p o) (vm_var m)) q = if Nat.eqb q p then o else load m q.
Proof.
  intros m p o q L. unfold M_Virtual.load. cbn. rewrite nth_setNth. apply Nat.ltb_lt in L. destruct (Nat.eqb q p); [|reflexivity].
  rewrite L. destruct o; reflexivity.
Qed.
(** the pointer in a fresh variable *)
Lemma rel_alloc : forall m e x b, rel m e -> vm_var m x = None ->
  rel (setVar Kind St (fst (alloc Kind St m b)) x (Some (snd (alloc Kind St m b)))) (upd Kind St e x (Some b)).
Proof.
  intros m e x b (R1 & R2 & R3) X. set (m1 := fst (alloc Kind St m b)).
  assert (LA : forall p, load (setVar Kind St m1 x (Some (snd (alloc Kind St m b)))) p = if Nat.eqb p (length (vm_heap m)) then Some b else load m p) by (intros p; apply load_alloc).
  assert (FR : forall y p, vm_var m y = Some p -> p < length (vm_heap m)).
  { intros y p Y. specialize (R1 y). rewrite Y in R1. destruct R1 as [N R1]. destruct (e y) as [b'|]; [|congruence]. exact (load_lt _ _ _ R1). }
  split; [|split].
  - intros y. cbn [setVar M_Virtual.vm_var m1 alloc fst snd]. unfold upd. destruct (Nat.eqb_spec y x) as [->|N].
    + split; [discriminate|]. rewrite LA, Nat.eqb_refl. reflexivity.
    + specialize (R1 y). destruct (vm_var m y) as [p|] eqn:Y; [|assumption]. rewrite LA. pose proof (FR y p Y).
      destruct (Nat.eqb_spec p (length (vm_heap m))); [lia|assumption].
  - intros y z p. cbn [setVar M_Virtual.vm_var m1 alloc fst snd]. destruct (Nat.eqb_spec y x) as [->|Ny], (Nat.eqb_spec z x) as [->|Nz]; intros Y Z; try reflexivity.
    + injection Y as <-. pose proof (FR z _ Z). lia.
    + injection Z as <-. pose proof (FR y _ Y). lia.
    + exact (R2 y z p Y Z).
  - intros p b' L. rewrite LA in L. cbn [setVar M_Virtual.vm_var m1 alloc fst snd]. destruct (Nat.eqb_spec p (length (vm_heap m))) as [->|N].
    + exists x. rewrite Nat.eqb_refl. reflexivity.
    + destruct (R3 p b' L) as (y & Y). exists y. destruct (Nat.eqb_spec y x); [congruence|assumption].
Qed.
(** deleting the object of a variable *)
Lemma free_ok : forall m e x p, rel m e -> vm_var m x = Some p ->
  exists m', free Kind St m p = Some m' /\ vm_var m' = vm_var m /\ rel (setVar Kind St m' x None) (upd Kind St e x None)
    /\ forall q, load m' q = if Nat.eqb q p then None else load m q.
Proof.
  intros m e x p (R1 & R2 & R3) X. pose proof (R1 x) as Rx. rewrite X in Rx. destruct Rx as [Nx Lx]. destruct (e x) as [b|] eqn:Ex; [|congruence].
  unfold free. rewrite Lx. eexists. split; [reflexivity|]. split; [reflexivity|].
  pose proof (load_lt _ _ _ Lx) as HL. assert (LS := fun q => load_set m p None q HL). split; [|exact LS]. split; [|split].
  - intros y. cbn [setVar M_Virtual.vm_var]. unfold upd. destruct (Nat.eqb_spec y x) as [->|N]; [reflexivity|]. pose proof (R1 y) as Ry.
    destruct (vm_var m y) as [q|] eqn:Y; [|assumption]. destruct Ry as [Ny Ly]. split; [assumption|].
    change (load (mkMem Kind St (setNth (vm_heap m) p None) (vm_var m)) q = e y). rewrite LS. destruct (Nat.eqb_spec q p) as [->|]; [|assumption]. pose proof (R2 x y p X Y). congruence.
  - intros y z q. cbn [setVar M_Virtual.vm_var]. destruct (Nat.eqb_spec y x) as [->|Ny]; [discriminate|]. destruct (Nat.eqb_spec z x) as [->|Nz]; [discriminate|]. apply R2.
  - intros q b' L. change (load (mkMem Kind St (setNth (vm_heap m) p None) (vm_var m)) q = Some b') in L. rewrite LS in L. destruct (Nat.eqb_spec q p) as [->|N]; [discriminate|].
    destruct (R3 q b' L) as (y & Y). exists y. cbn [setVar M_Virtual.vm_var]. destruct (Nat.eqb_spec y x) as [->|]; [congruence|assumption].
Qed.

Lemma exec_sim : forall m e o, rel m e ->
  match vexec e o with
  | Some (e', r) => exists m', exec m o = Some (m', r) /\ rel m' e'
  | None => exec m o = None
  end.
Proof.
  intros m e o R. pose proof R as (R1 & R2 & R3).
  assert (VN : forall x, e x = None -> vm_var m x = None).
  { intros x E. specialize (R1 x). destruct (vm_var m x); [|reflexivity]. destruct R1; congruence. }
  assert (VS : forall x b, e x = Some b -> exists p, vm_var m x = Some p /\ load m p = Some b).
  { intros x b E. specialize (R1 x). destruct (vm_var m x) as [p|]; [|congruence]. exists p. rewrite <- E. split; [reflexivity|apply R1]. }
  destruct o as [x b|x y|x y|x|x|x y|x]; cbn [S_Virtual.vexec M_Virtual.exec].
  - unfold op_make. destruct (e x) as [b'|] eqn:Ex.
    + destruct (VS x b' Ex) as (p & -> & _). reflexivity.
    + pose proof (VN x Ex) as X. rewrite X. eexists. split; [reflexivity|]. exact (rel_alloc m e x b R X).
  - unfold op_copy. destruct (e x) as [b'|] eqn:Ex.
    + destruct (VS x b' Ex) as (p & -> & _). reflexivity.
    + pose proof (VN x Ex) as X. rewrite X. destruct (e y) as [b|] eqn:Ey.
      * destruct (VS y b Ey) as (q & -> & L). cbn [bind]. rewrite L. cbn [bind]. eexists. split; [reflexivity|]. exact (rel_alloc m e x b R X).
      * rewrite (VN y Ey). reflexivity.
  - unfold op_assign. destruct (e x) as [b'|] eqn:Ex.
    + destruct (VS x b' Ex) as (p & X & Lx). rewrite X. cbn [bind]. destruct (e y) as [b|] eqn:Ey.
      * destruct (VS y b Ey) as (q & Y & L). rewrite Y. cbn [bind]. destruct (free_ok m e x p R X) as (m1 & F & V & R' & L1). rewrite F. cbn [bind].
        rewrite L1. destruct (Nat.eqb_spec x y) as [->|N].
        -- rewrite X in Y. injection Y as <-. rewrite Nat.eqb_refl. reflexivity.
        -- destruct (Nat.eqb_spec q p) as [->|_]; [pose proof (R2 x y p X Y); congruence|]. rewrite L. cbn [bind].
           eexists. split; [reflexivity|]. pose proof (rel_alloc _ _ x b R' ltac:(cbn; rewrite Nat.eqb_refl; reflexivity)) as Q.
           clear -Q. destruct Q as (Q1 & Q2 & Q3). cbn [alloc fst snd setVar M_Virtual.vm_heap M_Virtual.vm_var] in *.
           split; [|split].
           ++ intros z. specialize (Q1 z). cbn [setVar M_Virtual.vm_var] in *. unfold upd in *. destruct (Nat.eqb z x); exact Q1.
           ++ intros z w s. specialize (Q2 z w s). cbn [setVar M_Virtual.vm_var] in *. destruct (Nat.eqb z x), (Nat.eqb w x); exact Q2.
           ++ intros s b2 HL. destruct (Q3 s b2 HL) as (z & Z). exists z. cbn [setVar M_Virtual.vm_var] in *. destruct (Nat.eqb z x); exact Z.
      * rewrite (VN y Ey). reflexivity.
    + rewrite (VN x Ex). reflexivity.
  - unfold op_increment. destruct (e x) as [[k s]|] eqn:Ex; [|rewrite (VN x Ex); reflexivity].
    destruct (VS x _ Ex) as (p & X & Lx). rewrite X. cbn [bind]. rewrite Lx. cbn [bind bk_kind bk_state]. unfold write. rewrite Lx. eexists. split; [reflexivity|].
    pose proof (load_lt _ _ _ Lx) as HL. assert (LS := fun q => load_set m p (Some (mkBack Kind St k (step k s))) q HL). split; [|split].
    + intros y. cbn [M_Virtual.vm_var]. unfold upd. pose proof (R1 y) as Ry. destruct (Nat.eqb_spec y x) as [->|N].
      * rewrite X. split; [discriminate|]. rewrite LS, Nat.eqb_refl. reflexivity.
      * destruct (vm_var m y) as [q|] eqn:Y; [|assumption]. rewrite LS. destruct (Nat.eqb_spec q p) as [->|]; [pose proof (R2 x y p X Y); congruence|assumption].
    + exact R2.
    + intros q b L. rewrite LS in L. destruct (Nat.eqb_spec q p) as [->|]; [exists x; assumption|exact (R3 q b L)].
  - unfold op_destroy. destruct (e x) as [b|] eqn:Ex; [|rewrite (VN x Ex); reflexivity].
    destruct (VS x b Ex) as (p & X & Lx). rewrite X. cbn [bind]. destruct (free_ok m e x p R X) as (m1 & F & V & R' & L1). rewrite F. cbn [bind].
    eexists. split; [reflexivity|]. assumption.
  - unfold op_equals. destruct (e x) as [[k s]|] eqn:Ex; [|rewrite (VN x Ex); reflexivity]. destruct (VS x _ Ex) as (p & X & Lx). rewrite X. cbn [bind].
    destruct (e y) as [[k' s']|] eqn:Ey; [|rewrite (VN y Ey); reflexivity]. destruct (VS y _ Ey) as (q & Y & Ly). rewrite Y. cbn [bind]. rewrite Lx, Ly. cbn [bind bk_kind bk_state].
    eexists. split; [|exact R]. cbn. destruct (kind_eqb k k'); reflexivity.
  - unfold op_index. destruct (e x) as [[k s]|] eqn:Ex; [|rewrite (VN x Ex); reflexivity]. destruct (VS x _ Ex) as (p & X & Lx). rewrite X. cbn [bind]. rewrite Lx.
    eexists. split; [reflexivity|exact R].
Qed.
Lemma run_sim : forall os m e, rel m e ->
  match vrun e os with
  | Some (e', rs) => exists m', run m os = Some (m', rs) /\ rel m' e'
  | None => run m os = None
  end.
Proof.
  induction os as [|o os IH]; intros m e R; cbn [S_Virtual.vrun M_Virtual.run]; [exists m; split; [reflexivity|assumption]|].
  pose proof (exec_sim m e o R) as E. destruct (vexec e o) as [[e1 r]|].
  - destruct E as (m1 & -> & R1). cbn [bind]. specialize (IH m1 e1 R1). destruct (vrun e1 os) as [[e2 rs]|].
    + destruct IH as (m2 & -> & R2). exists m2. split; [reflexivity|assumption].
    + rewrite IH. reflexivity.
  - rewrite E. reflexivity.
Qed.
Lemma rel_empty : rel (emptyMem Kind St) (fun _ => None).
Proof. split; [|split]; cbn; intros; try discriminate; [reflexivity|]. destruct p; discriminate. Qed.

(** legal programs are those the value semantics executes *)
Lemma legal_vrun : forall os (live : nat -> bool) e, (forall x, live x = match e x with Some _ => true | None => false end) ->
  legal Kind St live os = match vrun e os with Some _ => true | None => false end.
Proof.
  induction os as [|o os IH]; intros live e H; [reflexivity|]. cbn [legal S_Virtual.vrun]. destruct o as [x b|x y|x y|x|x|x y|x]; cbn [S_Virtual.vexec]; rewrite ?H.
  - destruct (e x) eqn:Ex; [reflexivity|]. cbn [negb andb]. rewrite (IH _ (upd Kind St e x (Some b))).
    + destruct (vrun (upd Kind St e x (Some b)) os) as [[? ?]|]; reflexivity.
    + intros y. unfold upd. destruct (Nat.eqb y x); [reflexivity|apply H].
  - destruct (e x) eqn:Ex; [reflexivity|]. cbn [negb andb]. destruct (e y) as [b|] eqn:Ey; [|reflexivity]. cbn [andb]. rewrite (IH _ (upd Kind St e x (Some b))).
    + destruct (vrun (upd Kind St e x (Some b)) os) as [[? ?]|]; reflexivity.
    + intros z. unfold upd. destruct (Nat.eqb z x); [reflexivity|apply H].
  - destruct (e x) eqn:Ex; [|reflexivity]. cbn [andb]. destruct (e y) as [b'|] eqn:Ey; [|reflexivity]. cbn [andb].
    destruct (Nat.eqb_spec x y) as [->|N]; cbn [negb andb]; [reflexivity|]. rewrite (IH _ (upd Kind St e x (Some b'))).
    + destruct (vrun (upd Kind St e x (Some b')) os) as [[? ?]|]; reflexivity.
    + intros z. unfold upd. destruct (Nat.eqb_spec z x) as [->|]; [rewrite H, Ex; reflexivity|apply H].
  - destruct (e x) as [[k s]|] eqn:Ex; [|reflexivity]. cbn [andb]. rewrite (IH _ (upd Kind St e x (Some (mkBack Kind St k (step k s))))).
    + destruct (vrun _ os) as [[? ?]|]; reflexivity.
    + intros z. unfold upd. destruct (Nat.eqb_spec z x) as [->|]; [rewrite H, Ex; reflexivity|apply H].
  - destruct (e x) as [b|] eqn:Ex; [|reflexivity]. cbn [andb]. rewrite (IH _ (upd Kind St e x None)).
    + destruct (vrun _ os) as [[? ?]|]; reflexivity.
    + intros z. unfold upd. destruct (Nat.eqb_spec z x) as [->|]; [reflexivity|]. cbn [negb andb]. apply H.
  - destruct (e x) as [[k s]|] eqn:Ex; [|reflexivity]. cbn [andb]. destruct (e y) as [[k' s']|] eqn:Ey; [|reflexivity]. cbn [andb]. rewrite (IH _ e H).
    destruct (vrun e os) as [[? ?]|]; reflexivity.
  - destruct (e x) as [[k s]|] eqn:Ex; [|reflexivity]. cbn [andb]. rewrite (IH _ e H). destruct (vrun e os) as [[? ?]|]; reflexivity.
Qed.
Lemma vrun_untouched : forall os e e' rs y, vrun e os = Some (e', rs) -> (forall o, In o os -> touches Kind St y o = false) -> e' y = e y.
Proof.
  induction os as [|o os IH]; intros e e' rs y E H; cbn [S_Virtual.vrun] in E; [congruence|].
  destruct (vexec e o) as [[e1 r]|] eqn:E1; [|discriminate]. destruct (vrun e1 os) as [[e2 rs']|] eqn:E2; [|discriminate]. injection E as -> _.
  rewrite (IH e1 e' rs' y E2) by (intros; apply H; right; assumption). specialize (H o (or_introl eq_refl)).
  destruct o as [x b|x z|x z|x|x|x z|x]; cbn [S_Virtual.vexec touches] in *.
  - destruct (e x); [discriminate|]. injection E1 as <- <-. unfold upd. rewrite Nat.eqb_sym, H. reflexivity.
  - destruct (e x); [discriminate|]. destruct (e z); [|discriminate]. injection E1 as <- <-. unfold upd. rewrite Nat.eqb_sym, H. reflexivity.
  - destruct (e x); [|discriminate]. destruct (e z); [|discriminate]. destruct (Nat.eqb x z); [discriminate|]. injection E1 as <- <-. unfold upd. rewrite Nat.eqb_sym, H. reflexivity.
  - destruct (e x) as [[k s]|]; [|discriminate]. injection E1 as <- <-. unfold upd. rewrite Nat.eqb_sym, H. reflexivity.
  - destruct (e x); [|discriminate]. injection E1 as <- <-. unfold upd. rewrite Nat.eqb_sym, H. reflexivity.
  - destruct (e x) as [[k s]|]; [|discriminate]. destruct (e z) as [[k' s']|]; [|discriminate]. injection E1 as <- <-. reflexivity.
  - destruct (e x) as [[k s]|]; [|discriminate]. injection E1 as <- <-. reflexivity.
Qed.
End Sim.
