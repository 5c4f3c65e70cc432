(** Lemmas for C91: the checks of test-multilineargeometry.cc. *)
From Coq Require Import PeanoNat NArith ZArith Bool List Reals Lia Lra.
From Verif Require Import M_Type M_RefTopo M_RefGeo M_Matrix M_Affine M_MultiLinear M_GaussNewton M_LocalFE M_CheckGeo M_AffineTest M_MLTest
  S_Topo S_RefGeo S_Matrix S_MultiLinear S_GaussNewton S_Agree S_CheckGeo P_RSum P_AffineTest.
Import ListNotations.
Local Open Scope R_scope.

Lemma check_step (b c : bool) : (if b then false else c) = true <-> b = false /\ c = true.
Proof. destruct b, c; split; intro H; try discriminate; auto; destruct H; discriminate. Qed.
Lemma rows_true mydim cdim eps A B J b : ta_rows mydim cdim eps A B J b = true <->
  b = true /\ forall i, (i < mydim)%nat -> two_norm cdim (fun k => ta_map mydim cdim A B (upd vzero i 1) k - J i k) <= eps.
Proof.
  unfold ta_rows.
  assert (G : forall n, forN n (fun i pass => if Rltb eps (two_norm cdim (fun k => ta_map mydim cdim A B (upd vzero i 1) k - J i k)) then false else pass) b = true <->
     b = true /\ forall i, (i < n)%nat -> two_norm cdim (fun k => ta_map mydim cdim A B (upd vzero i 1) k - J i k) <= eps).
  { induction n as [|n IH]; cbn [forN]; [split; [intro; split; [assumption|lia]|tauto]|].
    rewrite check_step, IH, Rltb_false. split.
    - intros (H1 & H2 & H3). split; [exact H2|]. intros i Hi. destruct (Nat.eq_dec i n) as [->|]; [exact H1|apply H3; lia].
    - intros (H2 & H3). split; [apply H3; lia|]. split; [exact H2|]. intros; apply H3; lia. }
  apply G.
Qed.

Section Loops.
Variables (mydim cdim : nat) (eps : R) (g : Made) (id : N) (r : RefElement).
Lemma pos_corner c : re_position id mydim r c mydim = nth_error (referenceCorners id mydim) c.
Proof. unfold re_position. now rewrite Nat.eqb_refl. Qed.
Definition corner_good (p : Vec) : Prop := exists y z, gi_global (fst g) p = Some y /\ snd g y = Some z /\ two_norm mydim (fun k => p k - z k) <= eps.
Lemma corners_true : forall n c b, mt_corners mydim eps g id r n c b = Some true <->
  b = true /\ forall i, (c <= i < c + n)%nat -> exists p, nth_error (referenceCorners id mydim) i = Some p /\ corner_good p.
Proof.
  induction n as [|n IH]; intros c b; cbn [mt_corners].
  - split; [intro H; split; [congruence|lia]|intros [-> _]; reflexivity].
  - rewrite pos_corner. split.
    + destruct (nth_error (referenceCorners id mydim) c) as [p|] eqn:Ep; [|discriminate]. cbn [obind].
      destruct (gi_global (fst g) p) as [y|] eqn:Ey; [|discriminate]. cbn [obind]. destruct (snd g y) as [z|] eqn:Ez; [|discriminate]. cbn [obind].
      intro H. apply IH in H. rewrite check_step, Rltb_false in H. destruct H as [[H1 H2] H3]. split; [exact H2|]. intros i Hi.
      destruct (Nat.eq_dec i c) as [->|]; [|apply H3; lia]. exists p. split; [exact Ep|]. exists y, z. auto.
    + intros [Hb H]. destruct (H c ltac:(lia)) as (p & Ep & y & z & Ey & Ez & Hz). rewrite Ep. cbn [obind]. rewrite Ey. cbn [obind]. rewrite Ez. cbn [obind].
      apply IH. rewrite check_step, Rltb_false. split; [auto|]. intros i Hi. apply H. lia.
Qed.
Definition jt_good (A B : Mat) (p : Vec) : Prop := exists J, gi_jacobianTransposed (fst g) p = Some J /\
  forall i, (i < mydim)%nat -> two_norm cdim (fun k => ta_map mydim cdim A B (upd vzero i 1) k - J i k) <= eps.
Lemma jacobians_true A B : forall n c b, mt_jacobians mydim cdim eps g id r A B n c b = Some true <->
  b = true /\ forall i, (c <= i < c + n)%nat -> exists p, nth_error (referenceCorners id mydim) i = Some p /\ jt_good A B p.
Proof.
  induction n as [|n IH]; intros c b; cbn [mt_jacobians].
  - split; [intro H; split; [congruence|lia]|intros [-> _]; reflexivity].
  - rewrite pos_corner. split.
    + destruct (nth_error (referenceCorners id mydim) c) as [p|] eqn:Ep; [|discriminate]. cbn [obind].
      destruct (gi_jacobianTransposed (fst g) p) as [J|] eqn:Ey; [|discriminate]. cbn [obind].
      intro H. apply IH in H. rewrite rows_true in H. destruct H as [[H1 H2] H3]. split; [exact H1|]. intros i Hi.
      destruct (Nat.eq_dec i c) as [->|]; [|apply H3; lia]. exists p. split; [exact Ep|]. exists J. auto.
    + intros [Hb H]. destruct (H c ltac:(lia)) as (p & Ep & J & Ey & HJ). rewrite Ep. cbn [obind]. rewrite Ey. cbn [obind].
      apply IH. rewrite rows_true. split; [auto|]. intros i Hi. apply H. lia.
Qed.
End Loops.

Lemma obind_true {X} (o : option X) (f : X -> option bool) : obind o f = Some true <-> exists x, o = Some x /\ f x = Some true.
Proof. destruct o as [x|]; cbn [obind]; split; [intro H; now exists x|intros (x' & E & H); now injection E as ->|discriminate|intros (x' & E & _); discriminate]. Qed.
Lemma some_true (b : bool) : Some b = Some true <-> b = true.
Proof. split; congruence. Qed.

(** what must hold of a class under test for the checks to succeed *)
Lemma checks_true mydim cdim eps tolc rule junk det (g : Made) id r A B c dA :
  length (referenceCorners id mydim) = size id mydim mydim ->
  mt_checks mydim cdim eps tolc rule junk det g id r A B c dA = Some true <->
    gi_affine (fst g) = Some true /\
    (exists ie, gi_integrationElement (fst g) c = Some ie /\ Rabs (ie - Rabs dA) <= eps) /\
    (exists v, gi_volume (fst g) = Some v /\ Rabs (v - referenceVolume id mydim * Rabs dA) <= eps) /\
    (exists m, gi_center (fst g) = Some m /\ two_norm cdim (fun k => m k - ta_map mydim cdim A B c k) <= eps) /\
    (forall p, In p (referenceCorners id mydim) -> corner_good mydim eps g p) /\
    jt_good mydim cdim eps g A B c /\
    (forall p, In p (referenceCorners id mydim) -> jt_good mydim cdim eps g A B p) /\
    checkGeometry mydim cdim tolc junk (fst g) (snd g) (det mydim) (rule id mydim) = Some true.
Proof.
  intro NL. unfold mt_checks.
  assert (ALL : forall P : Vec -> Prop, (forall i, (0 <= i < 0 + size id mydim mydim)%nat -> exists p, nth_error (referenceCorners id mydim) i = Some p /\ P p) <-> forall p, In p (referenceCorners id mydim) -> P p).
  { intro P. split.
    - intros H p Hp. apply In_nth_error in Hp. destruct Hp as [i Ei]. assert (i < length (referenceCorners id mydim))%nat by (apply nth_error_Some; congruence).
      destruct (H i ltac:(lia)) as (q & Eq & Hq). assert (q = p) by congruence. now subst q.
    - intros H i Hi. destruct (nth_error (referenceCorners id mydim) i) as [p|] eqn:E; [|apply nth_error_None in E; lia]. exists p. split; [reflexivity|]. apply H. now apply nth_error_In in E. }
  rewrite obind_true. split.
  - intros (a & Ea & H). apply obind_true in H. destruct H as (ie & Ei & H). apply obind_true in H. destruct H as (v & Ev & H). apply obind_true in H. destruct H as (m & Em & H).
    cbv zeta in H. apply obind_true in H. destruct H as (b1 & E1 & H). apply obind_true in H. destruct H as (J & EJ & H). apply obind_true in H. destruct H as (b2 & E2 & H).
    apply obind_true in H. destruct H as (b3 & E3 & H). apply some_true, andb_true_iff in H. destruct H as [-> ->].
    apply jacobians_true in E2. rewrite rows_true in E2. destruct E2 as [[-> R1] R2]. apply corners_true in E1. rewrite !check_step, !Rltb_false in E1.
    destruct E1 as [(C3 & C2 & C1 & ->) C4]. split; [exact Ea|]. split; [eauto|]. split; [eauto|]. split; [eauto|]. split; [now apply ALL|]. split; [exists J; auto|]. split; [now apply ALL|exact E3].
  - intros (Ea & (ie & Ei & C1) & (v & Ev & C2) & (m & Em & C3) & C4 & (J & EJ & R1) & R2 & E3). exists true. split; [exact Ea|].
    apply obind_true. exists ie. split; [exact Ei|]. apply obind_true. exists v. split; [exact Ev|]. apply obind_true. exists m. split; [exact Em|]. cbv zeta.
    apply obind_true. exists true. split; [apply corners_true; rewrite !check_step, !Rltb_false; split; [auto|now apply ALL]|].
    apply obind_true. exists J. split; [exact EJ|]. apply obind_true. exists true. split; [apply jacobians_true; rewrite rows_true; split; [auto|now apply ALL]|].
    apply obind_true. exists true. split; [exact E3|reflexivity].
Qed.
