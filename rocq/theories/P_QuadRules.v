(** From the tables to the rules that QuadratureRules::rule returns. *)
From Coq Require Import NArith ZArith QArith PeanoNat Reals List Qreals Lia Lra Bool FunctionalExtensionality.
From Coquelicot Require Import Coquelicot.
From Verif Require Import M_Type M_TypeIndex M_RefGeo M_QuadFactory M_Tab M_TabGauss M_TabLobatto M_TabRadauLeft
  M_TabRadauRight M_TabJacobi1 M_TabJacobi2 M_TabSimplex M_Quadrature S_Topo S_Quad S_Quad1D S_QuadND
  P_Type P_Type2 P_Topo P_RefGeo2 P_RefVol P_QuadFactory P_QuadFix P_QuadProd P_QuadFixN P_TabGauss P_TabLobatto P_TabRadauLeft P_TabRadauRight
  P_TabJacobi1 P_TabJacobi2 P_TabSimplex.
Import ListNotations.
Local Open Scope R_scope.

(** ** one dimensional tables *)
Lemma quad_table data (f : R -> R) :
  quad (map (fun xw => (vec1 (Q2R (fst xw)), Q2R (snd xw))) data) (fun y => f (y 0%nat)) = qsum data f.
Proof. induction data as [|[x w] data IH]; cbn [map quad qsum fst snd vec1]; [reflexivity|]. rewrite IH. reflexivity. Qed.

Definition posW (pts : list QPoint) : Prop := forall q, In q pts -> 0 < snd q.
Lemma posW_nonneg pts : posW pts -> nonnegW pts.
Proof. intros H q I. apply Rlt_le. now apply H. Qed.

Lemma tableRule_ok alpha gap hi tab p r : (alpha <= 2)%nat -> tab_ok alpha gap hi tab = true -> tableRule tab p = Some r ->
  (p <= ru_order r)%Z /\ (ru_order r = 2 * Z.of_nat (length (ru_points r)) - gap)%Z
  /\ betaExact alpha 0 (Z.to_nat (ru_order r)) eps1 (ru_points r) /\ unitPts (ru_points r) /\ posW (ru_points r)
  /\ ru_type r = line.
Proof.
  intros Ha Ht H. unfold tableRule in H. destruct (switchOn tab p) as [e|] eqn:E; [|discriminate]. injection H as <-.
  destruct (tab_ok_spec alpha gap hi tab p Ha Ht) as [_ S1]. destruct (S1 e E) as (A & B & C & _ & D).
  cbn [ru_order ru_points]. rewrite map_length. split; [exact A|]. split; [exact B|]. split; [|split; [|split; [|reflexivity]]].
  - intros a b Hab. rewrite Nat.add_0_r.
    rewrite (quad_table (en_data e) (fun y => (1 - y) ^ a * y ^ b)). unfold bmom.
    rewrite <- (Rmult_1_r eps1). apply (data_ok_span alpha (Z.to_nat (en_order e))); [exact Ha|exact D|].
    eapply span_mon; [exact Hab|]. apply span_beta.
  - intros q I. apply in_map_iff in I. destruct I as ([x w] & <- & I). cbn [fst snd vec1]. apply (C x w I).
  - intros q I. apply in_map_iff in I. destruct I as ([x w] & <- & I). cbn [fst snd]. apply (C x w I).
Qed.

Lemma tableRule_some alpha gap hi tab p : (alpha <= 2)%nat -> tab_ok alpha gap hi tab = true ->
  ((exists r, tableRule tab p = Some r) <-> (0 <= p <= Z.of_nat hi)%Z).
Proof.
  intros Ha Ht. destruct (tab_ok_spec alpha gap hi tab p Ha Ht) as [S1 _]. rewrite <- S1. unfold tableRule.
  destruct (switchOn tab p) as [e|]; split; intros [x H]; try discriminate; eexists; reflexivity.
Qed.

Lemma eps1_val : 0 < eps1 < 1.
Proof.
  split; [apply eps1_pos|]. unfold eps1. rewrite <- Rinv_1. apply Rinv_lt_contravar.
  - rewrite Rmult_1_l. apply IZR_lt. reflexivity.
  - apply IZR_lt. reflexivity.
Qed.

Lemma quad_scaleWeights s o f : quad (scaleWeights s o) f = s * quad o f.
Proof. unfold scaleWeights. induction o as [|q o IH]; cbn [map quad fst snd]; [ring|]. rewrite IH. ring. Qed.

Lemma betaExact_scale alpha n s o : betaExact alpha 0 n eps1 o -> s * 2 ^ alpha = 1 -> 0 <= s <= 1 ->
  betaExact 0 alpha n eps1 (scaleWeights s o).
Proof.
  intros H Hs Hs1 a b Hab. specialize (H a b Hab). rewrite Nat.add_0_r in H.
  rewrite quad_scaleWeights. rewrite bmom_Beta in H. rewrite bmom_Beta, Nat.add_0_r, pow_O, Rmult_1_l.
  replace (Beta (a + alpha) b) with (s * (2 ^ alpha * Beta (a + alpha) b)) by (rewrite <- Rmult_assoc, Hs; ring).
  rewrite <- Rmult_minus_distr_l, Rabs_mult, (Rabs_right s) by lra.
  pose proof eps1_val. pose proof (Rabs_pos (quad o (fun y => (1 - y 0%nat) ^ a * y 0%nat ^ b) - 2 ^ alpha * Beta (a + alpha) b)). nra.
Qed.

Section Rules.
Variable lapack : Z -> nat -> option (list (R * R)).
Variable e : R.
Hypothesis He : eps1 <= e.
Hypothesis Hl : lapackOk e lapack.

Lemma lapack_ok p alpha data : (0 <= p)%Z -> lapack p alpha = Some data ->
  let pts := map (fun xw => (vec1 (fst xw), snd xw)) data in
  (p <= 2 * Z.of_nat (length pts) - 1)%Z
  /\ betaExact 0 alpha (Z.to_nat (2 * Z.of_nat (length pts) - 1)) e pts /\ unitPts pts /\ nonnegW pts.
Proof.
  intros Hp H pts. destruct (Hl p alpha data H) as (A & B & C). unfold pts. rewrite map_length. split; [exact A|].
  split; [|split].
  - intros a b Hab.
    specialize (C a b ltac:(lia)).
    replace (quad _ _) with (fold_right (fun xw s => snd xw * ((1 - fst xw) ^ a * fst xw ^ b) + s) 0 data).
    + replace (bmom 0 (a + alpha) b) with (RInt (fun t => (1 - t) ^ alpha * ((1 - t) ^ a * t ^ b)) 0 1); [exact C|].
      unfold bmom. apply RInt_ext. intros t _. rewrite omega_0, pow_add. toR_. ring.
    + clear. induction data as [|q data IH]; cbn [map quad fold_right fst snd vec1]; [reflexivity|]. rewrite IH. reflexivity.
  - intros q I. apply in_map_iff in I. destruct I as ([x w] & <- & I). cbn [fst snd vec1]. apply (B x w I).
  - intros q I. apply in_map_iff in I. destruct I as ([x w] & <- & I). cbn [fst snd]. apply (B x w I).
Qed.

(** what is known of a one dimensional rule *)
Definition good1 (alpha shift : nat) (p : Z) (r : Rule) : Prop :=
  (p <= ru_order r)%Z /\ betaExact alpha shift (Z.to_nat (ru_order r)) e (ru_points r)
  /\ unitPts (ru_points r) /\ nonnegW (ru_points r) /\ ru_type r = line.

Lemma table_good alpha gap hi tab p r : (alpha <= 2)%nat -> tab_ok alpha gap hi tab = true -> tableRule tab p = Some r ->
  good1 alpha 0 p r.
Proof.
  intros Ha Ht H. destruct (tableRule_ok alpha gap hi tab p r Ha Ht H) as (A & _ & B & C & D & T).
  split; [exact A|]. split; [|split; [exact C|split; [now apply posW_nonneg|exact T]]].
  eapply betaExact_weaken; [exact B|lia|exact He].
Qed.

Lemma scaled_good alpha tab p (s : R) r : (alpha <= 2)%nat -> tab_ok alpha 1 61 tab = true ->
  tableRule tab p = Some r -> s * 2 ^ alpha = 1 -> 0 <= s <= 1 ->
  let pts := scaleWeights s (ru_points r) in
  (p <= 2 * Z.of_nat (length pts) - 1)%Z
  /\ betaExact 0 alpha (Z.to_nat (2 * Z.of_nat (length pts) - 1)) e pts /\ unitPts pts /\ nonnegW pts.
Proof.
  intros Ha Ht H Hs Hs1 pts. destruct (tableRule_ok alpha 1 61 tab p r Ha Ht H) as (A & B & C & D & E & _).
  unfold pts. replace (length (scaleWeights s (ru_points r))) with (length (ru_points r))
    by (unfold scaleWeights; now rewrite map_length).
  rewrite <- B. split; [exact A|]. split; [|split].
  - eapply betaExact_weaken; [apply betaExact_scale; eassumption|lia|exact He].
  - intros q I. apply in_map_iff in I. destruct I as (q' & <- & I). cbn [fst]. now apply D.
  - intros q I. apply in_map_iff in I. destruct I as (q' & <- & I). cbn [snd]. apply Rmult_le_pos; [lra|].
    apply Rlt_le. now apply E.
Qed.

Lemma scale_id pts : scaleWeights 1 pts = pts.
Proof.
  unfold scaleWeights. induction pts as [|[x w] pts IH]; [reflexivity|]. cbn [map fst snd]. rewrite Rmult_1_l, IH. reflexivity.
Qed.

Lemma jacobiN_good p alpha r : jacobiN lapack p alpha = Some r -> good1 0 alpha p r.
Proof.
  unfold jacobiN. destruct (Z.ltb_spec p 0) as [|Hp]; cbn [orb]; [discriminate|].
  destruct (Z.ltb_spec maxOrderJacobiN p) as [|Hp2]; [discriminate|].
  destruct (decideRule lapack p alpha) as [pts|] eqn:E; [|discriminate]. intros H. injection H as <-.
  unfold good1. cbn [ru_order ru_points ru_type].
  cut ((p <= 2 * Z.of_nat (length pts) - 1)%Z
    /\ betaExact 0 alpha (Z.to_nat (2 * Z.of_nat (length pts) - 1)) e pts /\ unitPts pts /\ nonnegW pts); [tauto|].
  unfold decideRule in E. destruct (jacobiTable p alpha) as [q|] eqn:J.
  - assert (Q : q = alpha /\ (alpha <= 2)%nat).
    { unfold jacobiTable in J. destruct (p <? _)%Z; [|discriminate].
      destruct alpha as [|[|[|alpha]]]; try discriminate; injection J as <-; split; auto. }
    destruct Q as [-> Ha].
    destruct alpha as [|[|[|alpha]]]; [| | |lia].
    + destruct (tableRule gaussTable p) as [r|] eqn:T; [|discriminate]. injection E as <-.
      rewrite <- (scale_id (ru_points r)). apply (scaled_good 0 gaussTable); auto using gauss_ok; simpl; lra.
    + destruct (tableRule jacobi1Table p) as [r|] eqn:T; [|discriminate]. injection E as <-.
      apply (scaled_good 1 jacobi1Table); auto using jacobi1_ok; simpl; lra.
    + destruct (tableRule jacobi2Table p) as [r|] eqn:T; [|discriminate]. injection E as <-.
      apply (scaled_good 2 jacobi2Table); auto using jacobi2_ok; simpl; lra.
  - destruct (lapack p alpha) as [data|] eqn:L; [|discriminate]. injection E as <-. now apply lapack_ok.
Qed.

Lemma rule1D_good p qt r : rule1D lapack p qt = Some r -> good1 (weightExp qt) 0 p r.
Proof.
  destruct qt as [|[|[|[|[|[|[|qt]]]]]]]; cbn [rule1D weightExp]; [| | |apply jacobiN_good| | | |discriminate]; intros H.
  - apply (table_good 0 1 61 gaussTable); auto using gauss_ok.
  - apply (table_good 1 1 61 jacobi1Table); auto using jacobi1_ok.
  - apply (table_good 2 1 61 jacobi2Table); auto using jacobi2_ok.
  - apply (table_good 0 3 31 lobattoTable); auto using lobatto_ok.
  - apply (table_good 0 2 30 radauLeftTable); auto using radauLeft_ok.
  - apply (table_good 0 2 30 radauRightTable); auto using radauRight_ok.
Qed.
End Rules.
