(** The integral of a polynomial over the reference simplex is the sum of the integrals over
    the elements of the refined simplex. *)
From Coq Require Import NArith ZArith PeanoNat Bool List Permutation Reals Factorial Lia Lra FunctionalExtensionality.
From Coquelicot Require Import Coquelicot.
From Verif Require Import M_RefGeo M_Quadrature S_Topo S_RefGeo S_Quad1D S_QuadND P_Topo P_RSum P_RefGeo P_RefGeo4 P_RefVol P_QuadProd
  M_Refine S_Refine P_Refine1 P_Refine2 P_Refine3 P_Refine4 P_Refine5 P_KuhnInt P_KuhnInt2.
Import ListNotations.
Local Open Scope R_scope.

Fixpoint lsumR {A} (l : list A) (f : A -> R) : R := match l with [] => 0 | a :: l => f a + lsumR l f end.
Lemma lsumR_app {A} : forall (l l' : list A) f, lsumR (l ++ l') f = lsumR l f + lsumR l' f.
Proof. induction l as [|a l IH]; intros; cbn; [ring|]. rewrite IH. ring. Qed.
Lemma lsumR_flat {A B} : forall (g : A -> list B) l f, lsumR (flat_map g l) f = lsumR l (fun a => lsumR (g a) f).
Proof. intros g. induction l as [|a l IH]; intros; cbn; [reflexivity|]. rewrite lsumR_app, IH. reflexivity. Qed.
Lemma lsumR_map {A B} : forall (g : A -> B) l f, lsumR (map g l) f = lsumR l (fun a => f (g a)).
Proof. intros g. induction l as [|a l IH]; intros; cbn; [reflexivity|]. rewrite IH. reflexivity. Qed.
Lemma lsumR_ext {A} : forall (l : list A) f g, (forall a, In a l -> f a = g a) -> lsumR l f = lsumR l g.
Proof. induction l as [|a l IH]; intros f g H; cbn; [reflexivity|]. rewrite (H a) by (left; reflexivity). rewrite (IH f g) by (intros; apply H; right; assumption). reflexivity. Qed.
Lemma lsumR_perm {A} : forall (l l' : list A) f, Permutation l l' -> lsumR l f = lsumR l' f.
Proof. intros l l' f H. induction H; cbn; [reflexivity|rewrite IHPermutation; reflexivity|ring|congruence]. Qed.
Lemma lsumR_scal {A} : forall (l : list A) c f, lsumR l (fun a => c * f a) = c * lsumR l f.
Proof. induction l as [|a l IH]; intros; cbn; [ring|]. rewrite IH. ring. Qed.
Lemma lsumR_seq : forall n f, lsumR (seq 0 n) f = rsum n f.
Proof. induction n as [|n IH]; intros f; [reflexivity|]. rewrite seq_S, lsumR_app, IH. cbn. ring. Qed.
(** telescoping over a segment *)
Lemma lsumR_tele : forall n s (f : nat -> R), lsumR (seq s n) (fun j => f j - f (S j)) = f s - f (s + n)%nat.
Proof. induction n as [|n IH]; intros s f; cbn [seq lsumR]; [rewrite Nat.add_0_r; ring|]. rewrite IH. replace (S s + n)%nat with (s + S n)%nat by lia. ring. Qed.

(** ** the elements by their origins and the positions of the coordinates in the Kuhn order *)
Definition shiftN (j a : nat) : nat := if Nat.ltb a j then a else S a.
Definition fibre (n d : nat) (e : list nat * list nat) : list (nat * nat) :=
  match d with
  | O => map (fun m => (m, 0%nat)) (seq 0 n)
  | S d' => flat_map (fun m => map (fun j => (m, j)) (seq 0 (d + 1))) (seq 0 (nth d' (fst e) 0%nat))
            ++ map (fun j => (nth d' (fst e) 0%nat, j)) (seq (S (nth d' (snd e) 0%nat)) (d - nth d' (snd e) 0%nat))
  end.
Definition extend (e : list nat * list nat) (mj : nat * nat) : list nat * list nat :=
  (fst e ++ [fst mj], map (shiftN (snd mj)) (snd e) ++ [snd mj]).
Fixpoint El (n d : nat) : list (list nat * list nat) :=
  match d with O => [([], [])] | S d => flat_map (fun e => map (extend e) (fibre n d e)) (El n d) end.

Definition lnth (l : list nat) (i : nat) : nat := nth i l 0%nat.
Definition elemOK (n d : nat) (e : list nat * list nat) : Prop :=
  length (fst e) = d /\ length (snd e) = d /\ isPerm d (lnth (snd e)) /\ (0 < d -> lnth (fst e) 0 < n)%nat /\ inCond d (lnth (snd e)) (lnth (fst e)).
Lemma shiftN_inj : forall j a b, shiftN j a = shiftN j b -> a = b.
Proof. intros j a b. unfold shiftN. destruct (Nat.ltb_spec a j), (Nat.ltb_spec b j); lia. Qed.
Lemma shiftN_ne : forall j a, shiftN j a <> j.
Proof. intros j a. unfold shiftN. destruct (Nat.ltb_spec a j); lia. Qed.
Lemma shiftN_le : forall j a d, (a < d)%nat -> (shiftN j a < S d)%nat.
Proof. intros j a d H. unfold shiftN. destruct (Nat.ltb_spec a j); lia. Qed.
Lemma shiftN_mono : forall j a b, (Nat.ltb (shiftN j a) (shiftN j b)) = Nat.ltb a b.
Proof.
  intros j a b. destruct (Nat.ltb_spec a b) as [L|L]; [apply Nat.ltb_lt|apply Nat.ltb_ge]; unfold shiftN; destruct (Nat.ltb_spec a j), (Nat.ltb_spec b j); lia.
Qed.
Lemma shiftN_back : forall j b, b <> j -> shiftN j (if Nat.ltb b j then b else b - 1)%nat = b.
Proof. intros j b N. unfold shiftN. destruct (Nat.ltb_spec b j); [destruct (Nat.ltb_spec b j); lia|]. destruct (Nat.ltb_spec (b - 1) j); lia. Qed.
Lemma in_fibre : forall n d e m j, In (m, j) (fibre n d e) <->
  match d with
  | O => (m < n)%nat /\ j = 0%nat
  | S d' => (j <= d)%nat /\ ((m < lnth (fst e) d')%nat \/ (m = lnth (fst e) d' /\ (lnth (snd e) d' < j)%nat /\ (lnth (snd e) d' <= d)%nat))
  end.
Proof.
  intros n [|d] e m j; cbn [fibre].
  - rewrite in_map_iff. split.
    + intros (a & E & I). apply in_seq in I. injection E as <- <-. lia.
    + intros [H ->]. exists m. split; [reflexivity|]. apply in_seq. lia.
  - rewrite in_app_iff, in_flat_map, in_map_iff. unfold lnth. split.
    + intros [(a & A & B)|(a & E & I)].
      * apply in_map_iff in B. destruct B as (b & E & B). injection E as <- <-. apply in_seq in A. apply in_seq in B. lia.
      * injection E as <- <-. apply in_seq in I. lia.
    + intros [H [L|(-> & L & L')]].
      * left. exists m. split; [apply in_seq; lia|]. apply in_map_iff. exists j. split; [reflexivity|]. apply in_seq. lia.
      * right. exists j. split; [reflexivity|]. apply in_seq. lia.
Qed.
Lemma lnth_app_l : forall l a i, (i < length l)%nat -> lnth (l ++ [a]) i = lnth l i.
Proof. intros. unfold lnth. apply app_nth1. assumption. Qed.
Lemma lnth_app_r : forall l a i, i = length l -> lnth (l ++ [a]) i = a.
Proof. intros. subst. unfold lnth. rewrite app_nth2 by lia. rewrite Nat.sub_diag. reflexivity. Qed.
Lemma lnth_map : forall f l i, (i < length l)%nat -> lnth (map f l) i = f (lnth l i).
Proof. intros. unfold lnth. rewrite (nth_indep _ 0%nat (f 0%nat)) by (rewrite map_length; assumption). apply map_nth. Qed.
Lemma extend_ok : forall n d e mj, elemOK n d e -> In mj (fibre n d e) -> elemOK n (S d) (extend e mj).
Proof.
  intros n d [ol ql] [m j] (L1 & L2 & [P1 P2] & B & C) I. apply in_fibre in I. cbn [fst snd] in *. unfold extend, elemOK. cbn [fst snd].
  assert (Hj : (j <= d)%nat) by (destruct d; lia).
  assert (Q1 : forall i, (i < d)%nat -> lnth (map (shiftN j) ql ++ [j]) i = shiftN j (lnth ql i)).
  { intros i Hi. rewrite lnth_app_l by (rewrite map_length; lia). apply lnth_map. lia. }
  assert (Q2 : lnth (map (shiftN j) ql ++ [j]) d = j) by (apply lnth_app_r; rewrite map_length; lia).
  assert (O1 : forall i, (i < d)%nat -> lnth (ol ++ [m]) i = lnth ol i) by (intros; apply lnth_app_l; lia).
  assert (O2 : lnth (ol ++ [m]) d = m) by (apply lnth_app_r; lia).
  split; [rewrite app_length; cbn; lia|]. split; [rewrite app_length, map_length; cbn; lia|]. split; [split|split].
  - intros i Hi. destruct (Nat.eq_dec i d) as [->|N]; [rewrite Q2; lia|]. rewrite Q1 by lia. apply shiftN_le. apply P1. lia.
  - intros i i' Hi Hi'. destruct (Nat.eq_dec i d) as [->|N], (Nat.eq_dec i' d) as [->|N']; [reflexivity| | |].
    + rewrite Q2, Q1 by lia. intros E. symmetry in E. apply shiftN_ne in E. contradiction.
    + rewrite Q2, Q1 by lia. intros E. apply shiftN_ne in E. contradiction.
    + rewrite !Q1 by lia. intros E. apply shiftN_inj in E. apply P2; [lia|lia|assumption].
  - intros _. destruct d as [|d]; [rewrite O2; lia|]. rewrite O1 by lia. apply B. lia.
  - intros i Hi. destruct (Nat.eq_dec (S i) d) as [<-|N].
    + rewrite O2, Q2, (O1 i), (Q1 i) by lia. destruct I as [_ [I|(I1 & I2 & I3)]].
      * lia.
      * unfold shiftN. rewrite (proj2 (Nat.ltb_lt (lnth ql i) j)) by assumption. rewrite (proj2 (Nat.ltb_lt (lnth ql i) j)) by assumption. lia.
    + rewrite !O1, !Q1, shiftN_mono by lia. apply C. lia.
Qed.
Lemma el_ok : forall n d e, In e (El n d) -> elemOK n d e.
Proof.
  intros n. induction d as [|d IH]; intros e I.
  - destruct I as [<-|[]]. repeat split; cbn; intros; try lia. intros i Hi. lia.
  - cbn [El] in I. apply in_flat_map in I. destruct I as (e' & I' & I). apply in_map_iff in I. destruct I as (mj & <- & I). apply extend_ok; auto.
Qed.
Lemma ok_el : forall n d e, elemOK n d e -> In e (El n d).
Proof.
  intros n. induction d as [|d IH]; intros [ol ql] (L1 & L2 & [P1 P2] & B & C); cbn [fst snd] in *.
  - destruct ol; [|discriminate]. destruct ql; [|discriminate]. left. reflexivity.
  - cbn [El]. apply in_flat_map.
    destruct (exists_last (l := ol)) as (ol' & m & ->); [intros ->; discriminate|].
    destruct (exists_last (l := ql)) as (ql' & j & ->); [intros ->; discriminate|].
    rewrite app_length in L1, L2. cbn in L1, L2.
    assert (O1 : forall i, (i < d)%nat -> lnth (ol' ++ [m]) i = lnth ol' i) by (intros; apply lnth_app_l; lia).
    assert (O2 : lnth (ol' ++ [m]) d = m) by (apply lnth_app_r; lia).
    assert (Q1 : forall i, (i < d)%nat -> lnth (ql' ++ [j]) i = lnth ql' i) by (intros; apply lnth_app_l; lia).
    assert (Q2 : lnth (ql' ++ [j]) d = j) by (apply lnth_app_r; lia).
    assert (NJ : forall i, (i < d)%nat -> lnth ql' i <> j).
    { intros i Hi E. assert (i = d); [|lia]. apply P2; [lia|lia|]. rewrite Q1, Q2 by assumption. exact E. }
    assert (Hj : (j < S d)%nat) by (pose proof (P1 d ltac:(lia)) as Z; rewrite Q2 in Z; exact Z).
    set (back := fun b => if Nat.ltb b j then b else (b - 1)%nat).
    assert (BQ : forall i, (i < d)%nat -> lnth (map back ql') i = back (lnth ql' i)) by (intros; apply lnth_map; lia).
    assert (SB : forall i, (i < d)%nat -> shiftN j (back (lnth ql' i)) = lnth ql' i) by (intros i Hi; apply shiftN_back, NJ; assumption).
    exists (ol', map back ql'). split.
    + apply IH. unfold elemOK. cbn [fst snd]. split; [lia|]. split; [rewrite map_length; lia|]. split; [split|split].
      * intros i Hi. rewrite BQ by assumption. specialize (P1 i ltac:(lia)). rewrite Q1 in P1 by assumption. pose proof (NJ i Hi). unfold back.
        destruct (Nat.ltb_spec (lnth ql' i) j); lia.
      * intros i i' Hi Hi' E. rewrite !BQ in E by assumption. apply (f_equal (shiftN j)) in E. rewrite !SB in E by assumption.
        apply P2; [lia|lia|]. rewrite !Q1 by assumption. assumption.
      * intros Hd. rewrite <- O1 by assumption. apply B. lia.
      * intros i Hi. specialize (C i ltac:(lia)). rewrite !O1, !Q1 in C by lia. rewrite !BQ by lia.
        rewrite <- (shiftN_mono j), !SB by lia. assumption.
    + apply in_map_iff. exists (m, j). split.
      * unfold extend. cbn [fst snd]. f_equal. f_equal. rewrite map_map. rewrite <- (map_id ql') at 2. apply map_ext_in. intros b I.
        apply shiftN_back. intros ->. apply In_nth with (d := 0%nat) in I. destruct I as (i & Hi & E). apply (NJ i ltac:(lia)). exact E.
      * apply in_fibre. cbn [fst snd]. destruct d as [|d]; [pose proof (B ltac:(lia)) as Z; rewrite O2 in Z; lia|].
        split; [lia|]. rewrite BQ by lia. specialize (C d ltac:(lia)). rewrite (O1 d), O2, (Q1 d), Q2 in C by lia. specialize (SB d ltac:(lia)).
        pose proof (P1 d ltac:(lia)) as Pd. rewrite Q1 in Pd by lia. pose proof (NJ d ltac:(lia)).
        destruct (Nat.ltb_spec (lnth ql' d) j).
        -- destruct (Nat.eq_dec m (lnth ol' d)); [right|left; lia]. split; [assumption|]. unfold back.
           rewrite (proj2 (Nat.ltb_lt (lnth ql' d) j)) by assumption. lia.
        -- left. lia.
Qed.
Lemma NoDup_flat {A B} : forall (g : A -> list B) l, NoDup l -> (forall a, In a l -> NoDup (g a)) ->
  (forall a a' b, In a l -> In a' l -> In b (g a) -> In b (g a') -> a = a') -> NoDup (flat_map g l).
Proof.
  intros g l N. induction N as [|a l I N IH]; intros H D; cbn [flat_map]; [constructor|].
  apply NoDup_app_intro.
  - apply H. left. reflexivity.
  - apply IH; [intros; apply H; right; assumption|intros a1 a2 b; intros; apply (D a1 a2 b); auto; right; assumption].
  - intros b B1 B2. apply in_flat_map in B2. destruct B2 as (a' & A' & B2).
    assert (a = a') by (apply (D a a' b); cbn; auto). subst. contradiction.
Qed.
Lemma NoDup_fibre : forall n d e, NoDup (fibre n d e).
Proof.
  intros n [|d] e; cbn [fibre].
  - apply NoDup_map_inj; [congruence|apply seq_NoDup].
  - apply NoDup_app_intro.
    + apply NoDup_flat; [apply seq_NoDup| |].
      * intros a _. apply NoDup_map_inj; [congruence|apply seq_NoDup].
      * intros a a' b _ _ I I'. apply in_map_iff in I. apply in_map_iff in I'. destruct I as (c & <- & _), I' as (c' & E & _). congruence.
    + apply NoDup_map_inj; [congruence|apply seq_NoDup].
    + intros b I I'. apply in_flat_map in I. destruct I as (a & A & I). apply in_map_iff in I. apply in_map_iff in I'.
      destruct I as (c & <- & _), I' as (c' & E & _). apply in_seq in A. injection E as E _. lia.
Qed.
Lemma map_inj_list : forall (f : nat -> nat) l l', (forall a b, f a = f b -> a = b) -> map f l = map f l' -> l = l'.
Proof. intros f l l' H. revert l'. induction l as [|a l IH]; intros [|b l'] E; cbn in E; try discriminate; [reflexivity|]. injection E as E1 E2. f_equal; auto. Qed.
Lemma extend_inj : forall e e' mj mj', extend e mj = extend e' mj' -> e = e' /\ mj = mj'.
Proof.
  intros [ol ql] [ol' ql'] [m j] [m' j'] E. unfold extend in E. cbn [fst snd] in E. injection E as E1 E2.
  apply app_inj_tail in E1. apply app_inj_tail in E2. destruct E1 as [-> ->], E2 as [E2 ->].
  apply map_inj_list in E2; [|apply shiftN_inj]. subst. auto.
Qed.
Lemma NoDup_El : forall n d, NoDup (El n d).
Proof.
  intros n. induction d as [|d IH]; cbn [El]; [constructor; [intros []|constructor]|].
  apply NoDup_flat; [assumption| |].
  - intros e _. apply NoDup_map_inj; [|apply NoDup_fibre]. intros mj mj' E. apply extend_inj in E. tauto.
  - intros e e' b _ _ I I'. apply in_map_iff in I. apply in_map_iff in I'. destruct I as (c & <- & _), I' as (c' & E & _). apply extend_inj in E. symmetry. tauto.
Qed.

(** ** the sum over the elements *)
Definition elemInt (d : nat) (g : Vec -> R) (e : list nat * list nat) : R :=
  KI d (fun x => g (fun i => INR (lnth (fst e) i) + x (lnth (snd e) i))).
Lemma KI_agree : forall d f g, (forall x y, agree d x y -> f x = f y) -> (forall x, f x = g x) -> KI d f = KI d g.
Proof. intros. apply KI_ext. assumption. Qed.
Lemma polyf_elem : forall d g e, polyf d g -> isPerm d (lnth (snd e)) -> polyf d (fun x => g (fun i => INR (lnth (fst e) i) + x (lnth (snd e) i))).
Proof.
  intros d g e H [P _]. apply (pf_comp d d g (fun x i => INR (lnth (fst e) i) + x (lnth (snd e) i)) H). intros i Hi.
  apply (pf_plus d (fun _ => INR (lnth (fst e) i)) (fun x => x (lnth (snd e) i))); [apply pf_const|apply pf_coord, P; assumption].
Qed.
(** the elements over one element of the projection *)
Lemma ext_insert : forall n d e g A m j, elemOK n d e -> (j <= d)%nat -> polyf (S d) g -> polyf (S d) A -> antider d g A ->
  elemInt (S d) g (extend e (m, j)) =
  KI d (fun x => A (put d (fun i => INR (lnth (fst e) i) + x (lnth (snd e) i)) (INR m + bd d x j))
               - A (put d (fun i => INR (lnth (fst e) i) + x (lnth (snd e) i)) (INR m + bd d x (S j)))).
Proof.
  intros n d [ol ql] g A m j (L1 & L2 & [P1 P2] & _) Hj Hg HA AD. cbn [fst snd] in *. unfold elemInt, extend. cbn [fst snd].
  set (Hm := fun z => g (put d (fun i => INR (lnth ol i) + z (lnth ql i)) (INR m + z d))).
  set (Am := fun z => A (put d (fun i => INR (lnth ol i) + z (lnth ql i)) (INR m + z d))).
  assert (pc : forall f, polyf (S d) f -> polyf (S d) (fun z => f (put d (fun i => INR (lnth ol i) + z (lnth ql i)) (INR m + z d)))).
  { intros f Hf. apply (pf_comp (S d) (S d) f (fun z => put d (fun i => INR (lnth ol i) + z (lnth ql i)) (INR m + z d)) Hf). intros i Hi. unfold put.
    destruct (Nat.eqb_spec i d) as [->|N].
    - apply (pf_plus (S d) (fun _ => INR m) (fun z => z d)); [apply pf_const|apply pf_coord; lia].
    - apply (pf_plus (S d) (fun _ => INR (lnth ol i)) (fun z => z (lnth ql i))); [apply pf_const|apply pf_coord]. specialize (P1 i ltac:(lia)). lia. }
  assert (put_lo : forall (x : Vec) u, agree (S d) (put d (fun i => INR (lnth ol i) + put d x u (lnth ql i)) (INR m + put d x u d))
                                      (put d (fun i => INR (lnth ol i) + x (lnth ql i)) (INR m + u))).
  { intros x u i Hi. unfold put. rewrite Nat.eqb_refl. destruct (Nat.eqb_spec i d) as [->|N]; [reflexivity|].
    destruct (Nat.eqb_spec (lnth ql i) d) as [E|]; [|reflexivity]. specialize (P1 i ltac:(lia)). lia. }
  assert (AD' : antider d Hm Am).
  { intros x u. unfold Hm, Am.
    apply (is_derive_ext (fun u => A (put d (fun i => INR (lnth ol i) + x (lnth ql i)) (INR m + u)))).
    { intros t. symmetry. apply (pf_agree (S d) A); [assumption|apply put_lo]. }
    rewrite (pf_agree (S d) g _ _ Hg (put_lo x u)).
    pose proof (AD (fun i => INR (lnth ol i) + x (lnth ql i)) (INR m + u)) as D.
    pose proof (is_derive_comp (K := R_AbsRing) (V := R_NormedModule) (fun v => A (put d (fun i => INR (lnth ol i) + x (lnth ql i)) v)) (fun u => INR m + u) u _ 1 D) as D'.
    rewrite (@scal_one R_AbsRing R_ModuleSpace) in D'. apply D'.
    auto_derive; [auto|reflexivity]. }
  rewrite (KI_ext (S d) _ (fun x => Hm (put d (del j x) (x j)))).
  - rewrite (KI_insert d j Hm Am Hj (pc g Hg) AD'). apply KI_ext. intros x. unfold Am. f_equal; apply (pf_agree (S d) A); auto.
  - intros x. unfold Hm. apply (pf_agree (S d) g); [assumption|]. intros i Hi. unfold put. rewrite Nat.eqb_refl.
    destruct (Nat.eqb_spec i d) as [->|N].
    + rewrite (lnth_app_r ol) by lia. rewrite (lnth_app_r (map (shiftN j) ql)) by (rewrite map_length; lia). reflexivity.
    + rewrite (lnth_app_l ol) by lia. rewrite (lnth_app_l (map (shiftN j) ql)) by (rewrite map_length; lia). rewrite lnth_map by lia.
      specialize (P1 i ltac:(lia)). destruct (Nat.eqb_spec (lnth ql i) d); [lia|]. unfold del, shiftN. reflexivity.
Qed.
Lemma KI_lsum {A} : forall d (l : list A) (f : A -> Vec -> R), (forall a, In a l -> polyf d (f a)) ->
  lsumR l (fun a => KI d (f a)) = KI d (fun x => lsumR l (fun a => f a x)).
Proof.
  intros d l f. induction l as [|a l IH]; intros H; cbn [lsumR].
  - rewrite (KI_ext d (fun _ => 0) (fun _ => 0 * 1)) by (intros; ring). rewrite (KI_scal d (fun _ => 1)) by apply pf_const. ring.
  - rewrite IH by (intros; apply H; right; assumption). symmetry. apply KI_plus; [apply H; left; reflexivity|].
    assert (G : forall l, (forall a, In a l -> polyf d (f a)) -> polyf d (fun x => lsumR l (fun a => f a x))).
    { clear. induction l as [|a l IH]; intros H; cbn [lsumR]; [apply pf_const|].
      apply (pf_plus d (f a) (fun x => lsumR l (fun a => f a x))); [apply H; left; reflexivity|apply IH; intros; apply H; right; assumption]. }
    apply G. intros; apply H; right; assumption.
Qed.
Definition topOf (n d : nat) (y : Vec) : R := match d with O => INR n | S e => y e end.
Lemma fibre_sum : forall n d e g A, elemOK n d e -> polyf (S d) g -> polyf (S d) A -> antider d g A ->
  lsumR (fibre n d e) (fun mj => elemInt (S d) g (extend e mj)) = elemInt d (fun y => A (put d y (topOf n d y)) - A (put d y 0)) e.
Proof.
  intros n d e g A OK Hg HA AD. pose proof OK as (L1 & L2 & Pm & B & C).
  set (V := fun (x : Vec) (i : nat) => INR (lnth (fst e) i) + x (lnth (snd e) i)).
  rewrite (lsumR_ext _ _ (fun mj => KI d (fun x => A (put d (V x) (INR (fst mj) + bd d x (snd mj))) - A (put d (V x) (INR (fst mj) + bd d x (S (snd mj))))))).
  2:{ intros [m j] I. apply in_fibre in I. cbn [fst snd]. apply (ext_insert n d e g A m j OK); auto. destruct d; lia. }
  rewrite KI_lsum.
  2:{ intros [m j] _. cbn [fst snd].
      assert (G : forall i, polyf d (fun x => A (put d (V x) (INR m + bd d x i)))).
      { intros i. apply (pf_put d A (fun x => INR m + bd d x i) V HA).
        - intros k Hk. unfold V. apply (pf_plus d (fun _ => INR (lnth (fst e) k)) (fun x => x (lnth (snd e) k))); [apply pf_const|apply pf_coord, (proj1 Pm); assumption].
        - apply (pf_plus d (fun _ => INR m) (fun x => bd d x i)); [apply pf_const|apply pf_bd]. }
      apply (pf_minus d (fun x => A (put d (V x) (INR m + bd d x j)))); apply G. }
  unfold elemInt. apply KI_ext. intros x. fold (V x). destruct d as [|d].
  - cbn [fibre topOf]. rewrite lsumR_map. cbn [fst snd].
    rewrite (lsumR_ext _ _ (fun m => -1 * (A (put 0 (V x) (INR m)) - A (put 0 (V x) (INR (S m)))))).
    + rewrite lsumR_scal, (lsumR_tele n 0 (fun m => A (put 0 (V x) (INR m)))). cbn [Nat.add INR]. ring.
    + intros m _. unfold bd. cbn [Nat.eqb Nat.leb]. rewrite S_INR, Rplus_0_r. ring.
  - cbn [topOf]. unfold fibre. rewrite lsumR_app, lsumR_flat.
    set (oo := nth d (fst e) 0%nat). set (qq := nth d (snd e) 0%nat).
    assert (Hq : (qq < S d)%nat) by (apply (proj1 Pm d); lia).
    rewrite (lsumR_ext _ _ (fun m => -1 * (A (put (S d) (V x) (INR m)) - A (put (S d) (V x) (INR (S m)))))).
    + rewrite lsumR_scal, (lsumR_tele oo 0 (fun m => A (put (S d) (V x) (INR m)))). rewrite lsumR_map. cbn [fst snd].
      rewrite (lsumR_tele (S d - qq) (S qq) (fun j => A (put (S d) (V x) (INR oo + bd (S d) x j)))).
      assert (B1 : bd (S d) x (S qq) = x qq).
      { unfold bd. cbn [Nat.eqb]. rewrite (proj2 (Nat.leb_le (S qq) (S d))) by lia. f_equal. lia. }
      assert (B2 : bd (S d) x (S qq + (S d - qq)) = 0).
      { unfold bd. replace (S qq + (S d - qq))%nat with (S (S d)) by lia. cbn [Nat.eqb]. rewrite (proj2 (Nat.leb_gt (S (S d)) (S d))) by lia. reflexivity. }
      assert (B3 : V x d = INR oo + x qq) by reflexivity.
      rewrite B1, B2, B3, Rplus_0_r. cbn [Nat.add INR]. ring.
    + intros m _. rewrite lsumR_map. cbn [fst snd]. rewrite (lsumR_tele (S d + 1) 0 (fun j => A (put (S d) (V x) (INR m + bd (S d) x j)))).
      assert (B1 : bd (S d) x 0 = 1) by reflexivity.
      assert (B2 : bd (S d) x (0 + (S d + 1)) = 0).
      { unfold bd. replace (0 + (S d + 1))%nat with (S (S d)) by lia. cbn [Nat.eqb]. rewrite (proj2 (Nat.leb_gt (S (S d)) (S d))) by lia. reflexivity. }
      rewrite B1, B2, S_INR, Rplus_0_r. ring.
Qed.
Theorem tiling_sum : forall n d g, (0 < n)%nat -> polyf d g ->
  lsumR (El n d) (elemInt d g) = INR n ^ d * KI d (fun y => g (fun i => INR n * y i)).
Proof.
  intros n d. assert (G : forall g, (0 < n)%nat -> polyf d g -> lsumR (El n d) (elemInt d g) = INR n ^ d * KI d (fun y => g (fun i => INR n * y i))); [|exact G].
  induction d as [|d IH]; intros g Hn Hg.
  - cbn [El lsumR pow]. unfold elemInt. rewrite Rplus_0_r, Rmult_1_l. apply KI_ext. intros x. apply (pf_agree 0 g _ _ Hg). intros i Hi. lia.
  - cbn [El]. rewrite lsumR_flat. destruct (antider_exists d g Hg) as (A & HA & AD).
    rewrite (lsumR_ext _ _ (fun e => elemInt d (fun y => A (put d y (topOf n d y)) - A (put d y 0)) e)).
    2:{ intros e I. rewrite lsumR_map. apply fibre_sum; auto. apply el_ok. assumption. }
    assert (pT : polyf d (topOf n d)) by (destruct d; cbn [topOf]; [apply pf_const|apply pf_coord; lia]).
    rewrite IH; [|assumption|].
    2:{ apply (pf_minus d (fun y => A (put d y (topOf n d y)))); [apply pf_put1; assumption|]. apply (pf_put1 d A (fun _ => 0)); [assumption|apply pf_const]. }
    assert (N0 : INR n <> 0) by (apply not_0_INR; lia).
    set (Hn' := fun z : Vec => g (fun i => INR n * z i)). set (An := fun z : Vec => / INR n * A (fun i => INR n * z i)).
    assert (pn : polyf (S d) Hn').
    { apply (pf_comp (S d) (S d) g (fun z i => INR n * z i) Hg). intros i Hi. apply (pf_scal (S d) (fun z => z i)). apply pf_coord. assumption. }
    assert (ps : forall (x : Vec) u, (fun i => INR n * put d x u i) = put d (fun i => INR n * x i) (INR n * u)).
    { intros x u. extensionality i. unfold put. destruct (Nat.eqb i d); reflexivity. }
    assert (ADn : antider d Hn' An).
    { intros x u. unfold Hn', An. rewrite ps.
      apply (is_derive_ext (fun u => / INR n * A (put d (fun i => INR n * x i) (INR n * u)))); [intros t; rewrite ps; reflexivity|].
      pose proof (AD (fun i => INR n * x i) (INR n * u)) as D.
      pose proof (is_derive_comp (K := R_AbsRing) (V := R_NormedModule) (fun v => A (put d (fun i => INR n * x i) v)) (fun u => INR n * u) u _ (INR n) D) as D'.
      assert (L : is_derive (fun u => INR n * u) u (INR n)) by (auto_derive; [auto|ring]).
      specialize (D' L). apply (is_derive_scal (fun u => A (put d (fun i => INR n * x i) (INR n * u))) u (/ INR n)) in D'.
      match type of D' with is_derive _ _ ?l => replace (g (put d (fun i => INR n * x i) (INR n * u))) with l; [exact D'|] end.
      unfold scal; simpl; unfold mult; simpl. field. assumption. }
    assert (Q : KI (S d) Hn' = KI d (fun x => An (put d x (bd d x d)) - An (put d x (bd d x (S d))))).
    { rewrite <- (KI_insert d d Hn' An (le_n d) pn ADn). apply KI_ext. intros x. apply (pf_agree (S d) Hn' _ _ pn). intros i Hi. unfold put, del.
      destruct (Nat.eqb_spec i d) as [->|]; [reflexivity|]. destruct (Nat.ltb_spec i d); [reflexivity|lia]. }
    change (fun y => g (fun i => INR n * y i)) with Hn'. rewrite Q. cbn [pow]. rewrite (Rmult_comm (INR n)), Rmult_assoc. f_equal.
    rewrite <- KI_scal.
    2:{ assert (pA : forall i, polyf d (fun x => An (put d x (bd d x i)))).
        { intros i. apply (pf_put1 d An (fun x => bd d x i)); [|apply pf_bd]. apply (pf_scal (S d) (fun z => A (fun i => INR n * z i))).
          apply (pf_comp (S d) (S d) A (fun z i => INR n * z i) HA). intros k Hk. apply (pf_scal (S d) (fun z => z k)). apply pf_coord. assumption. }
        apply (pf_minus d (fun x => An (put d x (bd d x d)))); apply pA. }
    apply KI_ext. intros x. unfold An. rewrite !ps.
    assert (B1 : topOf n d (fun i => INR n * x i) = INR n * bd d x d).
    { destruct d as [|d]; cbn [topOf]; unfold bd; cbn [Nat.eqb]; [ring|]. rewrite Nat.leb_refl. f_equal. f_equal. lia. }
    assert (B2 : bd d x (S d) = 0) by (unfold bd; cbn [Nat.eqb]; rewrite (proj2 (Nat.leb_gt (S d) d)) by lia; reflexivity).
    rewrite B1, B2, Rmult_0_r. field. assumption.
Qed.
