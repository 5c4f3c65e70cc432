(** Geometries over corners held by reference against geometries over copies. *)
From Coq Require Import NArith PeanoNat Bool List Lia Reals Lra FunctionalExtensionality.
From Verif Require Import M_Type M_RefTopo M_RefGeo M_Matrix M_MultiLinear S_Matrix M_Storage.
Import ListNotations.

(** ** Programs that read corners only while these are what they were *)

(** [at_ x = Some s]: geometry x was made of vector s, which has not changed since *)
Definition forget (s : nat) (at_ : nat -> option nat) : nat -> option nat :=
  fun x => match at_ x with Some t => if Nat.eqb t s then None else Some t | None => None end.
Definition sync (at_ : nat -> option nat) (o : Op) : nat -> option nat :=
  match o with
  | SSet s _ _ | SFree s => forget s at_
  | GMake x _ s => set_at at_ x (Some s)
  | GCopy x y => set_at at_ x (at_ y)
  | _ => at_
  end.
Definition reads (o : Op) : option nat := match o with GCall x _ | GCenter x => Some x | _ => None end.
Fixpoint tidy (at_ : nat -> option nat) (os : list Op) : Prop :=
  match os with
  | [] => True
  | o :: os => match reads o with Some x => at_ x <> None | None => True end /\ tidy (sync at_ o) os
  end.

Section Sim.
Variables (mydim : nat) (C : GClass).
Record rel (at_ : nat -> option nat) (mv mr : Mem C) : Prop := {
  rel_store : forall s, m_store mv s = m_store mr s;
  rel_geo : forall x, match m_geo mv x, m_geo mr x with
    | Some gv, Some gr => ge_id gv = ge_id gr /\ ge_ref gv = ge_ref gr /\ ge_state gv = ge_state gr
    | None, None => True
    | _, _ => False end;
  rel_sync : forall x s, at_ x = Some s -> exists gv gr cs, m_geo mv x = Some gv /\ m_geo mr x = Some gr
    /\ ge_corners gv = inl cs /\ ge_corners gr = inr s /\ m_store mr s = Some cs }.

Lemma set_same {A} (f : nat -> A) i a : set_at f i a i = a.
Proof. unfold set_at. now rewrite Nat.eqb_refl. Qed.
Lemma set_other {A} (f : nat -> A) i j a : j <> i -> set_at f i a j = f j.
Proof. unfold set_at. intro H. destruct (Nat.eqb_spec j i); congruence. Qed.

Definition agree (at_ : nat -> option nat) (a b : option (Mem C * list Reply)) : Prop :=
  match a, b with
  | Some (mv, r), Some (mr, r') => r = r' /\ rel at_ mv mr
  | None, None => True
  | _, _ => False
  end.

Lemma step_read at_ mv mr x (q : N -> RefElement -> option Call) : rel at_ mv mr -> at_ x <> None ->
  agree at_
    (obind (m_geo mv x) (fun g => obind (corners_of C mv g) (fun cs => obind (q (ge_id g) (ge_ref g)) (fun q =>
      obind (gc_call C (view C g cs) (ge_state g) q) (fun '(r, st) =>
      Some ({| m_store := m_store mv; m_geo := set_at (m_geo mv) x (Some {| ge_id := ge_id g; ge_ref := ge_ref g; ge_corners := ge_corners g; ge_state := st |}) |}, [r]))))))
    (obind (m_geo mr x) (fun g => obind (corners_of C mr g) (fun cs => obind (q (ge_id g) (ge_ref g)) (fun q =>
      obind (gc_call C (view C g cs) (ge_state g) q) (fun '(r, st) =>
      Some ({| m_store := m_store mr; m_geo := set_at (m_geo mr) x (Some {| ge_id := ge_id g; ge_ref := ge_ref g; ge_corners := ge_corners g; ge_state := st |}) |}, [r])))))).
Proof.
  intros H A. destruct (at_ x) as [s|] eqn:E; [clear A|congruence].
  destruct (rel_sync _ _ _ H x s E) as (gv & gr & cs & Gv & Gr & Cv & Cr & S).
  pose proof (rel_geo _ _ _ H x) as K. rewrite Gv, Gr in K. destruct K as (K1 & K2 & K3).
  rewrite Gv, Gr. cbn [obind]. unfold corners_of. rewrite Cv, Cr, S. cbn [obind]. unfold view. rewrite K1, K2, K3.
  destruct (q (ge_id gr) (ge_ref gr)) as [c|]; cbn [obind agree]; [|trivial].
  destruct (gc_call C _ _ c) as [[r st]|]; cbn [obind agree]; [|trivial]. split; [reflexivity|]. split; cbn [m_store m_geo].
  - apply H.
  - intros y. destruct (Nat.eq_dec y x) as [->|N]; [rewrite !set_same; cbn; auto|]. rewrite !set_other by exact N. apply H.
  - intros y t Y. destruct (Nat.eq_dec y x) as [->|N].
    + rewrite !set_same. assert (t = s) by congruence. subst t. do 2 eexists. exists cs. cbn. repeat split; try reflexivity; assumption.
    + rewrite !set_other by exact N. now apply (rel_sync _ _ _ H).
Qed.

Lemma step_agree at_ mv mr o : rel at_ mv mr -> match reads o with Some x => at_ x <> None | None => True end ->
  agree (sync at_ o) (exec mydim C ByValue mv o) (exec mydim C ByRef mr o).
Proof.
  intros H Rd. assert (HS := rel_store _ _ _ H).
  assert (NW : forall s cs, (forall t, at_ t <> Some s) \/ True -> rel (forget s at_)
     {| m_store := set_at (m_store mv) s cs; m_geo := m_geo mv |} {| m_store := set_at (m_store mr) s cs; m_geo := m_geo mr |}).
  { intros s cs _. split; cbn [m_store m_geo].
    - intros t. destruct (Nat.eq_dec t s) as [->|N]; [now rewrite !set_same|]. rewrite !set_other by exact N. apply HS.
    - apply H.
    - intros x t Y. unfold forget in Y. destruct (at_ x) as [u|] eqn:E; [|discriminate]. destruct (Nat.eqb_spec u s); [discriminate|].
      assert (u = t) by congruence. subst u. rewrite set_other by congruence. now apply (rel_sync _ _ _ H). }
  destruct o as [s cs|s i v|s|x id s|x y|x q|x]; cbn [exec sync reads] in *.
  - rewrite HS. destruct (m_store mr s) as [c|] eqn:E; cbn [agree]; [trivial|]. split; [reflexivity|]. split; cbn [m_store m_geo].
    + intros t. destruct (Nat.eq_dec t s) as [->|N]; [now rewrite !set_same|]. rewrite !set_other by exact N. apply HS.
    + apply H.
    + intros x t Y. destruct (rel_sync _ _ _ H x t Y) as (gv & gr & c & Gv & Gr & Cv & Cr & St).
      rewrite set_other by congruence. now exists gv, gr, c.
  - rewrite HS. destruct (m_store mr s) as [c|]; cbn [obind agree]; [|trivial]. destruct (replace i v c) as [c'|]; cbn [obind agree]; [|trivial].
    split; [reflexivity|]. apply NW. now right.
  - rewrite HS. destruct (m_store mr s) as [c|]; cbn [obind agree]; [|trivial]. split; [reflexivity|]. apply NW. now right.
  - rewrite HS. destruct (m_store mr s) as [c|] eqn:E; cbn [obind agree]; [|trivial].
    destruct (re_infos id mydim) as [r|]; cbn [obind agree]; [|trivial].
    destruct (gc_make C _) as [st|]; cbn [obind agree]; [|trivial]. split; [reflexivity|]. split; cbn [m_store m_geo].
    + exact HS.
    + intros y. destruct (Nat.eq_dec y x) as [->|N]; [rewrite !set_same; cbn; auto|]. rewrite !set_other by exact N. apply H.
    + intros y t Y. destruct (Nat.eq_dec y x) as [->|N].
      * rewrite set_same in Y. assert (s = t) by congruence. subst t. rewrite !set_same. do 2 eexists. exists c. cbn. auto.
      * rewrite set_other in Y by exact N. rewrite !set_other by exact N. now apply (rel_sync _ _ _ H).
  - pose proof (rel_geo _ _ _ H y) as K. destruct (m_geo mv y) as [gv|] eqn:Ev, (m_geo mr y) as [gr|] eqn:Er; try contradiction; cbn [obind agree]; [|trivial].
    split; [reflexivity|]. split; cbn [m_store m_geo].
    + exact HS.
    + intros z. destruct (Nat.eq_dec z x) as [->|N]; [rewrite !set_same; exact K|]. rewrite !set_other by exact N. apply H.
    + intros z t Y. destruct (Nat.eq_dec z x) as [->|N].
      * rewrite set_same in Y. rewrite !set_same. destruct (rel_sync _ _ _ H y t Y) as (gv' & gr' & cs & Gv & Gr & Q).
        exists gv', gr', cs. rewrite <- Ev, <- Er. auto.
      * rewrite set_other in Y by exact N. rewrite !set_other by exact N. now apply (rel_sync _ _ _ H).
  - exact (step_read at_ mv mr x (fun _ _ => Some q) H Rd).
  - pose proof (step_read at_ mv mr x (fun id r => option_map CGlobal (re_position id mydim r 0 0)) H Rd) as K.
    assert (F : forall m : Mem C, obind (m_geo m x) (fun g => obind (corners_of C m g) (fun cs => obind (option_map CGlobal (re_position (ge_id g) mydim (ge_ref g) 0 0)) (fun q =>
      obind (gc_call C (view C g cs) (ge_state g) q) (fun '(r, st) =>
      Some ({| m_store := m_store m; m_geo := set_at (m_geo m) x (Some {| ge_id := ge_id g; ge_ref := ge_ref g; ge_corners := ge_corners g; ge_state := st |}) |}, [r])))))
      = obind (m_geo m x) (fun g => obind (corners_of C m g) (fun cs => obind (re_position (ge_id g) mydim (ge_ref g) 0 0) (fun p =>
      obind (gc_call C (view C g cs) (ge_state g) (CGlobal p)) (fun '(r, st) =>
      Some ({| m_store := m_store m; m_geo := set_at (m_geo m) x (Some {| ge_id := ge_id g; ge_ref := ge_ref g; ge_corners := ge_corners g; ge_state := st |}) |}, [r])))))).
    { intros m. destruct (m_geo m x) as [g|]; cbn [obind]; [|reflexivity]. destruct (corners_of C m g) as [cs|]; cbn [obind]; [|reflexivity].
      destruct (re_position _ _ _ _ _); reflexivity. }
    rewrite !F in K. exact K.
Qed.

Lemma run_agree : forall os at_ mv mr, rel at_ mv mr -> tidy at_ os ->
  option_map snd (run mydim C ByValue mv os) = option_map snd (run mydim C ByRef mr os).
Proof.
  induction os as [|o os IH]; intros at_ mv mr H T; [reflexivity|]. cbn [tidy] in T. destruct T as [T1 T2].
  pose proof (step_agree at_ mv mr o H T1) as A. cbn [run].
  destruct (exec mydim C ByValue mv o) as [[mv' r]|], (exec mydim C ByRef mr o) as [[mr' r']|]; cbn [agree] in A; try contradiction; cbn [obind]; [|reflexivity].
  destruct A as [-> A]. specialize (IH _ _ _ A T2).
  destruct (run mydim C ByValue mv' os) as [[mv2 rv]|], (run mydim C ByRef mr' os) as [[mr2 rr]|]; cbn [option_map snd obind] in *; congruence.
Qed.

Lemma rel_nothing : rel (fun _ => None) (nothing C) (nothing C).
Proof. split; cbn; [reflexivity|trivial|discriminate]. Qed.

(** ** Reachable memories *)
Definition sound (m : Mem C) : Prop := forall x g, m_geo m x = Some g -> re_infos (ge_id g) mydim = Some (ge_ref g).
Lemma exec_sound k m o m' r : sound m -> exec mydim C k m o = Some (m', r) -> sound m'.
Proof.
  intros S. destruct o as [s cs|s i v|s|x id s|x y|x q|x]; cbn [exec].
  - destruct (m_store m s); [discriminate|]. intros E. assert (m' = {| m_store := set_at (m_store m) s (Some cs); m_geo := m_geo m |}) by congruence. subst m'. exact S.
  - destruct (m_store m s) as [cs|]; [|discriminate]. cbn [obind]. destruct (replace i v cs) as [cs'|]; [|discriminate]. cbn [obind]. intros E.
    assert (Q : m_geo m' = m_geo m) by (replace m' with (fst (m', r)) by reflexivity; injection E as <- _; reflexivity). intros x g. rewrite Q. apply S.
  - destruct (m_store m s) as [cs|]; [|discriminate]. cbn [obind]. intros E.
    assert (Q : m_geo m' = m_geo m) by (injection E as <- _; reflexivity). intros x g. rewrite Q. apply S.
  - destruct (m_store m s) as [cs|]; [|discriminate]. cbn [obind]. destruct (re_infos id mydim) as [re|] eqn:RE; [|discriminate]. cbn [obind].
    destruct (gc_make C _) as [st|]; [|discriminate]. cbn [obind]. intros E. injection E as <- _. intros y g. cbn [m_geo].
    destruct (Nat.eq_dec y x) as [->|N]; [rewrite set_same|rewrite set_other by exact N; apply S]. intros E. injection E as <-. exact RE.
  - destruct (m_geo m y) as [gy|] eqn:Y; [|discriminate]. cbn [obind]. intros E. injection E as <- _. intros z g. cbn [m_geo].
    destruct (Nat.eq_dec z x) as [->|N]; [rewrite set_same|rewrite set_other by exact N; apply S]. intros E. apply (S y). congruence.
  - destruct (m_geo m x) as [gx|] eqn:X; [|discriminate]. cbn [obind]. destruct (corners_of C m gx) as [cs|]; [|discriminate]. cbn [obind].
    destruct (gc_call C _ _ _) as [[a st]|]; [|discriminate]. cbn [obind]. intros E. injection E as <- _. intros z g. cbn [m_geo].
    destruct (Nat.eq_dec z x) as [->|N]; [rewrite set_same|rewrite set_other by exact N; apply S]. intros E. injection E as <-. cbn. now apply (S x).
  - destruct (m_geo m x) as [gx|] eqn:X; [|discriminate]. cbn [obind]. destruct (corners_of C m gx) as [cs|]; [|discriminate]. cbn [obind].
    destruct (re_position _ _ _ _ _) as [p|]; [|discriminate]. cbn [obind].
    destruct (gc_call C _ _ _) as [[a st]|]; [|discriminate]. cbn [obind]. intros E. injection E as <- _. intros z g. cbn [m_geo].
    destruct (Nat.eq_dec z x) as [->|N]; [rewrite set_same|rewrite set_other by exact N; apply S]. intros E. injection E as <-. cbn. now apply (S x).
Qed.
Lemma run_sound k : forall os m m' rs, sound m -> run mydim C k m os = Some (m', rs) -> sound m'.
Proof.
  induction os as [|o os IH]; intros m m' rs S; cbn [run]; [intros E; assert (m = m') by congruence; now subst|].
  destruct (exec mydim C k m o) as [[m1 r]|] eqn:E; [|discriminate]. cbn [obind].
  destruct (run mydim C k m1 os) as [[m2 rs']|] eqn:E2; [|discriminate]. cbn [obind]. intros F. assert (m2 = m') by congruence. subst.
  apply (IH m1 m' rs'); [|exact E2]. now apply (exec_sound k m o m1 r).
Qed.
End Sim.
