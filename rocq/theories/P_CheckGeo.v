(** What the loops of checkGeometry compute. *)
From Coq Require Import PeanoNat NArith ZArith Bool List Reals Lia Lra FunctionalExtensionality.
From Verif Require Import M_Type M_RefTopo M_RefGeo M_Matrix M_Affine M_MultiLinear M_GaussNewton M_LocalFE M_CheckGeo
  S_Topo S_RefGeo S_Matrix S_MultiLinear S_Agree S_CheckGeo P_RSum P_Matrix P_Matrix2 P_Matrix3 P_Det P_MxBridge P_GaussNewton.
Import ListNotations.
Local Open Scope R_scope.

Lemma tfm_spec rows cols junk A : meq rows cols (toFieldMatrix rows cols junk (fm_mv cols A)) A.
Proof.
  unfold toFieldMatrix. assert (H : forall a b, (a < rows)%nat -> (b < cols)%nat -> forN cols (fun j result => forN rows (fun k result => mupd result k j (fm_mv cols A (upd vzero j 1) k)) result) junk a b = A a b).
  { apply (forN_inv (fun n res => forall a b, (a < rows)%nat -> (b < n)%nat -> res a b = A a b)); [intros; lia|].
    intros j s Hj IH a b Ha Hb.
    assert (Q : forall n, (forall a, (a < n)%nat -> forN n (fun k result => mupd result k j (fm_mv cols A (upd vzero j 1) k)) s a j = A a j) /\
      (forall a b, b <> j -> forN n (fun k result => mupd result k j (fm_mv cols A (upd vzero j 1) k)) s a b = s a b)).
    { clear a b Ha Hb. induction n as [|n [I1 I2]]; [split; [intros; lia|reflexivity]|]. cbn [forN]. split.
      - intros a Ha. destruct (Nat.eq_dec a n) as [->|].
        + rewrite mupd_same. unfold fm_mv. rewrite (rsum_ext cols _ (fun k => if Nat.eqb k j then A n k else 0)).
          * now apply (rsum_delta cols j (fun k => A n k)).
          * intros k Hk. unfold upd, vzero. destruct (Nat.eqb k j); ring.
        + rewrite mupd_other by auto. apply I1. lia.
      - intros a b N. rewrite mupd_other by auto. now apply I2. }
    destruct (Q rows) as [Q1 Q2]. destruct (Nat.eq_dec b j) as [->|]; [now apply Q1|]. rewrite Q2 by assumption. apply IH; lia. }
  intros a b Ha Hb. now apply H.
Qed.

Lemma Rltb_false' a b : Rltb a b = false <-> b <= a.
Proof. unfold Rltb. destruct (Rlt_dec a b); split; intro; try discriminate; try lra; reflexivity. Qed.
Lemma Rltb_true' a b : Rltb a b = true <-> a < b.
Proof. unfold Rltb. destruct (Rlt_dec a b); split; intro; try discriminate; try lra; reflexivity. Qed.

Lemma id_row_spec tol m i : forall n j, id_row tol m i n j = true <-> forall b, (j <= b < j + n)%nat -> Rabs (m i b - mone i b) < tol.
Proof.
  induction n as [|n IH]; intro j; cbn [id_row]; [split; [intros; lia|reflexivity]|].
  destruct (Rltb (Rabs (m i j - (if Nat.eqb i j then 1 else 0))) tol) eqn:E; cbn [negb].
  - rewrite IH. apply Rltb_true' in E. split.
    + intros H b Hb. destruct (Nat.eq_dec b j) as [->|]; [exact E|]. apply H. lia.
    + intros H b Hb. apply H. lia.
  - split; [discriminate|]. intro H. apply Rltb_false' in E. specialize (H j ltac:(lia)). unfold mone in H. lra.
Qed.
Lemma id_rows_spec tol m cols : forall n i, id_rows tol m cols n i = true <-> forall a b, (i <= a < i + n)%nat -> (b < cols)%nat -> Rabs (m a b - mone a b) < tol.
Proof.
  induction n as [|n IH]; intro i; cbn [id_rows]; [split; [intros; lia|reflexivity]|].
  destruct (id_row tol m i cols 0) eqn:E.
  - rewrite IH. rewrite id_row_spec in E. split.
    + intros H a b Ha Hb. destruct (Nat.eq_dec a i) as [->|]; [apply E; lia|]. apply H; lia.
    + intros H a b Ha Hb. apply H; lia.
  - split; [discriminate|]. intro H. enough (id_row tol m i cols 0 = true) by congruence. apply id_row_spec. intros b Hb. apply H; lia.
Qed.
Lemma isIdentity_spec n m tol : isIdentity n n m tol = true <-> forall i j, (i < n)%nat -> (j < n)%nat -> Rabs (m i j - mone i j) < tol.
Proof.
  unfold isIdentity. rewrite Nat.eqb_refl. cbn [negb]. rewrite id_rows_spec. split; intros H a b Ha Hb; apply H; lia.
Qed.

Lemma infinity_norm_spec rows cols A : nonzero (infinity_norm rows cols A) = false <-> forall i j, (i < rows)%nat -> (j < cols)%nat -> A i j = 0.
Proof.
  unfold infinity_norm.
  assert (H : forall n, 0 <= forN n (fun i a => Rmax (rsum cols (fun j => Rabs (A i j))) a) 0 /\
    (forN n (fun i a => Rmax (rsum cols (fun j => Rabs (A i j))) a) 0 = 0 <-> forall i j, (i < n)%nat -> (j < cols)%nat -> A i j = 0)).
  { induction n as [|n [I1 I2]]; [split; [cbn; lra|split; [intros; lia|reflexivity]]|]. cbn [forN].
    set (s := forN n _ 0) in *. assert (P : 0 <= rsum cols (fun j => Rabs (A n j))) by (apply rsum_nonneg; intros; apply Rabs_pos). split.
    - eapply Rle_trans; [exact P|apply Rmax_l].
    - split.
      + intros E i j Hi Hj. assert (rsum cols (fun j => Rabs (A n j)) <= 0) by (rewrite <- E; apply Rmax_l). assert (s <= 0) by (rewrite <- E; apply Rmax_r).
        destruct (Nat.eq_dec i n) as [->|]; [|apply I2; auto; [lra|lia]].
        assert (Q := rsum_term cols (fun j => Rabs (A n j)) j (fun k _ => Rabs_pos _) Hj). cbv beta in Q.
        destruct (Req_dec (A n j) 0) as [|N0]; [assumption|]. apply Rabs_pos_lt in N0. lra.
      + intro H. assert (s = 0) by (apply I2; intros; apply H; [lia|assumption]).
        rewrite (rsum_0 cols (fun j => Rabs (A n j))) by (intros j Hj; rewrite H by lia; apply Rabs_R0). rewrite H0. apply Rmax_left. lra. }
  destruct (H rows) as [P Q]. rewrite <- Q. unfold nonzero. set (s := forN rows _ 0) in *.
  split.
  - intro E. apply orb_false_iff in E. destruct E as [E1 E2]. apply Rltb_false' in E1, E2. lra.
  - intros ->. apply orb_false_iff. split; apply Rltb_false'; lra.
Qed.

Lemma gram_loop mydim cdim (J : Mat) : meq mydim mydim
  (forN mydim (fun i jtj => forN mydim (fun j jtj => forN cdim (fun k jtj => mupd jtj i j (jtj i j + J i k * J j k)) jtj) jtj) mzero)
  (fun i j => rsum cdim (fun k => J i k * J j k)).
Proof.
  assert (K : forall i j s, forall n, forN n (fun k jtj => mupd jtj i j (jtj i j + J i k * J j k)) s i j = s i j + rsum n (fun k => J i k * J j k) /\
     forall a b, a <> i \/ b <> j -> forN n (fun k jtj => mupd jtj i j (jtj i j + J i k * J j k)) s a b = s a b).
  { intros i j s. induction n as [|n [I1 I2]]; [split; [cbn; lra|reflexivity]|]. cbn [forN rsum]. split.
    - rewrite mupd_same, I1. lra.
    - intros a b N. rewrite mupd_other by exact N. now apply I2. }
  assert (L : forall i s, forall n, (forall b, (b < n)%nat -> forN n (fun j jtj => forN cdim (fun k jtj => mupd jtj i j (jtj i j + J i k * J j k)) jtj) s i b = s i b + rsum cdim (fun k => J i k * J b k)) /\
     (forall a b, a <> i \/ (n <= b)%nat -> forN n (fun j jtj => forN cdim (fun k jtj => mupd jtj i j (jtj i j + J i k * J j k)) jtj) s a b = s a b)).
  { intros i s. induction n as [|n [I1 I2]]; [split; [intros; lia|reflexivity]|]. cbn [forN].
    destruct (K i n (forN n (fun j jtj => forN cdim (fun k jtj => mupd jtj i j (jtj i j + J i k * J j k)) jtj) s) cdim) as [K1 K2]. split.
    - intros b Hb. destruct (Nat.eq_dec b n) as [->|]; [rewrite K1, I2 by (right; lia); reflexivity|]. rewrite K2 by auto. apply I1. lia.
    - intros a b N. rewrite K2 by (destruct N; [left; auto|right; lia]). apply I2. destruct N; [left; auto|right; lia]. }
  assert (M : forall n, (forall a b, (a < n)%nat -> (b < mydim)%nat -> forN n (fun i jtj => forN mydim (fun j jtj => forN cdim (fun k jtj => mupd jtj i j (jtj i j + J i k * J j k)) jtj) jtj) mzero a b = rsum cdim (fun k => J a k * J b k)) /\
     (forall a b, (n <= a)%nat -> forN n (fun i jtj => forN mydim (fun j jtj => forN cdim (fun k jtj => mupd jtj i j (jtj i j + J i k * J j k)) jtj) jtj) mzero a b = 0)).
  { induction n as [|n [I1 I2]]; [split; [intros; lia|reflexivity]|]. cbn [forN].
    destruct (L n (forN n (fun i jtj => forN mydim (fun j jtj => forN cdim (fun k jtj => mupd jtj i j (jtj i j + J i k * J j k)) jtj) jtj) mzero) mydim) as [L1 L2]. split.
    - intros a b Ha Hb. destruct (Nat.eq_dec a n) as [->|]; [rewrite L1, I2 by lia; lra|]. rewrite L2 by auto. apply I1; lia.
    - intros a b Ha. rewrite L2 by (left; lia). apply I2. lia. }
  intros a b Ha Hb. now apply M.
Qed.

Section Loops.
Variables (mydim cdim : nat) (tol : R) (junk : Mat) (g : GeoI) (local : Vec -> option Vec).

Lemma sum_spec : forall n i acc s, cg_sum g n i acc = Some s <->
  exists c : nat -> Vec, (forall j, (j < n)%nat -> gi_corner g (i + j) = Some (c j)) /\ s = fold_left (fun a j => fun k => a k + c j k) (seq 0 n) acc.
Proof.
  induction n as [|n IH]; intros i acc s; cbn [cg_sum].
  - split; [intro E; injection E as <-; exists (fun _ => vzero); split; [intros; lia|reflexivity]|]. intros (c & _ & ->). reflexivity.
  - split.
    + intro E. destruct (gi_corner g i) as [c0|] eqn:E0; [|discriminate]. cbn [obind] in E. apply IH in E. destruct E as (c & HC & ->).
      exists (fun j => match j with O => c0 | S j => c j end). split.
      * intros [|j] Hj; [now rewrite Nat.add_0_r|]. replace (i + S j)%nat with (S i + j)%nat by lia. apply HC. lia.
      * cbn [seq fold_left]. rewrite <- seq_shift. clear. generalize (seq 0 n) (fun k => acc k + c0 k). induction l; intro a0; [reflexivity|]. cbn [map fold_left]. apply IHl.
    + intros (c & HC & ->). rewrite <- (Nat.add_0_r i) at 1. rewrite (HC 0%nat) by lia. cbn [obind]. apply IH. exists (fun j => c (S j)). split.
      * intros j Hj. replace (S i + j)%nat with (i + S j)%nat by lia. apply HC. lia.
      * cbn [seq fold_left]. rewrite <- seq_shift. generalize (seq 0 n) (fun k => acc k + c 0%nat k). clear. induction l; intro a0; [reflexivity|]. cbn [map fold_left]. apply IHl.
Qed.
Lemma sum_value (c : nat -> Vec) n k : fold_left (fun a j => fun k => a k + c j k) (seq 0 n) vzero k = rsum n (fun j => c j k).
Proof.
  induction n as [|n IH]; [reflexivity|]. rewrite seq_S, fold_left_app. cbn [fold_left]. rewrite IH. cbn [rsum Nat.add]. reflexivity.
Qed.

Lemma corners_spec m avg : forall n i pass, cg_corners cdim tol g m avg n i pass = Some true <->
  pass = true /\ forall j, (i <= j < i + n)%nat -> exists c, gi_corner g j = Some c /\ tol < vdist cdim c m /\ tol < vdist cdim c avg.
Proof.
  induction n as [|n IH]; intros i pass; cbn [cg_corners].
  - split; [intro E; injection E as ->; split; [reflexivity|intros; lia]|]. intros [-> _]. reflexivity.
  - split.
    + destruct (gi_corner g i) as [c|] eqn:E0; [|discriminate]. cbn [obind]. rewrite IH. intros [HP H].
      destruct (Rltb tol (two_norm cdim (fun k => c k - m k))) eqn:E1; cbn [negb] in HP; [|destruct (negb _) in HP; discriminate].
      destruct (Rltb tol (two_norm cdim (fun k => c k - avg k))) eqn:E2; cbn [negb] in HP; [|discriminate].
      split; [exact HP|]. intros j Hj. destruct (Nat.eq_dec j i) as [->|]; [|apply H; lia]. exists c. apply Rltb_true' in E1, E2. auto.
    + intros [-> H]. destruct (H i ltac:(lia)) as (c & -> & E1 & E2). unfold vdist in E1, E2. cbn [obind]. apply IH.
      rewrite (proj2 (Rltb_true' _ _) E1), (proj2 (Rltb_true' _ _) E2). cbn [negb]. split; [reflexivity|]. intros j Hj. apply H. lia.
Qed.

Lemma place_spec id r : forall n i pass, cg_place mydim cdim tol g id r n i pass = Some true <->
  pass = true /\ forall j, (i <= j < i + n)%nat -> exists c q z, gi_corner g j = Some c /\ re_position id mydim r j mydim = Some q /\ gi_global g q = Some z /\ vdist cdim c z <= tol.
Proof.
  induction n as [|n IH]; intros i pass; cbn [cg_place].
  - split; [intro E; injection E as ->; split; [reflexivity|intros; lia]|]. intros [-> _]. reflexivity.
  - split.
    + destruct (gi_corner g i) as [c|] eqn:E0; [|discriminate]. cbn [obind]. destruct (re_position id mydim r i mydim) as [q|] eqn:E1; [|discriminate]. cbn [obind].
      destruct (gi_global g q) as [z|] eqn:E2; [|discriminate]. cbn [obind]. rewrite IH. intros [HP H].
      destruct (Rltb tol (two_norm cdim (fun k => c k - z k))) eqn:E3; [discriminate|].
      split; [exact HP|]. intros j Hj. destruct (Nat.eq_dec j i) as [->|]; [|apply H; lia]. exists c, q, z. apply Rltb_false' in E3. auto.
    + intros [-> H]. destruct (H i ltac:(lia)) as (c & q & z & -> & -> & E2 & E3). unfold vdist in E3. cbn [obind]. rewrite E2. cbn [obind]. apply IH.
      rewrite (proj2 (Rltb_false' _ _) E3). split; [reflexivity|]. intros j Hj. apply H. lia.
Qed.

Lemma flag (b pass : bool) : (if b then false else pass) = true <-> b = false /\ pass = true.
Proof. destruct b; intuition; discriminate. Qed.
Lemma mmul_id n m A B A' B' : meq n m A A' -> meq m n B B' -> forall i j, (i < n)%nat -> (j < n)%nat -> rsum m (fun k => A i k * B k j) = mmul m A' B' i j.
Proof. intros HA HB i j Hi Hj. apply rsum_ext. intros k Hk. now rewrite HA, HB. Qed.

Lemma point_spec id x pass : cg_point mydim cdim tol junk g local (detR mydim) id x pass = Some true <-> pass = true /\ point_passes mydim cdim tol g local id x.
Proof.
  unfold cg_point, point_passes. split.
  - destruct (gi_global g x) as [y|]; [|discriminate]. cbn [obind]. destruct (local y) as [z|] eqn:EL; [|discriminate]. cbn [obind].
    destruct (gi_jacobianTransposed g x) as [Jt|]; [|discriminate]. destruct (gi_jacobianInverseTransposed g x) as [Jit|]; [|discriminate].
    destruct (gi_jacobian g x) as [J|]; [|discriminate]. destruct (gi_jacobianInverse g x) as [Ji|]; [|discriminate]. cbn [obind].
    destruct (gi_integrationElement g x) as [ie|]; [|discriminate]. cbn [obind]. destruct (gi_affine g) as [a|]; [|discriminate]. cbn [obind].
    assert (T1 := tfm_spec mydim cdim junk Jt). assert (T2 := tfm_spec cdim mydim junk Jit). assert (T3 := tfm_spec cdim mydim junk J). assert (T4 := tfm_spec mydim cdim junk Ji).
    revert T1 T2 T3 T4. generalize (toFieldMatrix mydim cdim junk (fm_mv cdim Jt)) (toFieldMatrix cdim mydim junk (fm_mv mydim Jit)) (toFieldMatrix cdim mydim junk (fm_mv mydim J)) (toFieldMatrix mydim cdim junk (fm_mv cdim Ji)).
    intros JtF JitF JF JiF T1 T2 T3 T4 H.
    assert (HH : (if Rltb tol (Rabs (sqrt (detR mydim (forN mydim (fun i jtj => forN mydim (fun j jtj => forN cdim (fun k jtj => mupd jtj i j (jtj i j + JtF i k * JtF j k)) jtj) jtj) mzero)) - ie)) then false else
       if Rltb ie 0 then false else if nonzero (infinity_norm cdim mydim (fun i j => JitF i j - JiF j i)) then false else
       if nonzero (infinity_norm mydim cdim (fun i j => JtF i j - JF j i)) then false else
       if negb (isIdentity mydim mydim (fun i j => rsum cdim (fun k => JiF i k * JF k j)) tol) then false else
       if negb (isIdentity mydim mydim (fun i j => rsum cdim (fun k => JtF i k * JitF k j)) tol) then false else
       if Rltb tol (two_norm mydim (fun k => x k - z k)) then false else pass) = true /\
       (a = true -> exists vol, gi_volume g = Some vol /\ Rabs (vol - referenceVolume id mydim * ie) <= tol)).
    { destruct a; [|injection H as H; split; [exact H|discriminate]]. destruct (gi_volume g) as [vol|]; [|discriminate]. cbn [obind] in H.
      injection H as H. apply flag in H. destruct H as [H1 H2]. split; [exact H2|]. intros _. exists vol. split; [reflexivity|]. now apply Rltb_false'. }
    clear H. destruct HH as [H HA]. rewrite !flag in H. destruct H as (H1 & H2 & H3 & H4 & H5 & H6 & H7 & H8). split; [exact H8|].
    exists y, z, Jt, Jit, J, Ji, ie. split; [reflexivity|]. split; [exact EL|]. split; [now apply Rltb_false' in H7|]. do 4 (split; [reflexivity|]).
    apply negb_false_iff in H5, H6. rewrite isIdentity_spec in H5, H6. rewrite infinity_norm_spec in H3, H4. apply Rltb_false' in H1, H2.
    split; [intros i j Hi Hj; rewrite <- (mmul_id mydim cdim JtF JitF Jt Jit T1 T2) by assumption; now apply H6|].
    split; [intros i j Hi Hj; rewrite <- (mmul_id mydim cdim JiF JF Ji J T4 T3) by assumption; now apply H5|].
    split; [intros i j Hi Hj; unfold mtr; rewrite <- T1, <- T3 by assumption; specialize (H4 i j Hi Hj); lra|].
    split; [intros i j Hi Hj; unfold mtr; rewrite <- T2, <- T4 by assumption; specialize (H3 i j Hi Hj); lra|].
    split; [reflexivity|]. split; [exact H2|]. split; [|exists a; split; [reflexivity|exact HA]].
    rewrite (@detR_ext mydim _ (mmul cdim Jt (mtr Jt))) in H1; [exact H1|]. intros i j Hi Hj. rewrite (gram_loop mydim cdim JtF i j Hi Hj). apply rsum_ext. intros k Hk. unfold mtr. now rewrite !T1.
  - intros [-> (y & z & Jt & Jit & J & Ji & ie & -> & EL & HL & -> & -> & -> & -> & H1 & H2 & H3 & H4 & -> & H5 & H6 & a & -> & H7)]. unfold vdist in HL. cbn [obind]. rewrite EL. cbn [obind].
    assert (T1 := tfm_spec mydim cdim junk Jt). assert (T2 := tfm_spec cdim mydim junk Jit). assert (T3 := tfm_spec cdim mydim junk J). assert (T4 := tfm_spec mydim cdim junk Ji).
    revert T1 T2 T3 T4. generalize (toFieldMatrix mydim cdim junk (fm_mv cdim Jt)) (toFieldMatrix cdim mydim junk (fm_mv mydim Jit)) (toFieldMatrix cdim mydim junk (fm_mv mydim J)) (toFieldMatrix mydim cdim junk (fm_mv cdim Ji)).
    intros JtF JitF JF JiF T1 T2 T3 T4.
    assert (I1 : isIdentity mydim mydim (fun i j => rsum cdim (fun k => JtF i k * JitF k j)) tol = true).
    { apply isIdentity_spec. intros i j Hi Hj. rewrite (mmul_id mydim cdim JtF JitF Jt Jit T1 T2) by assumption. now apply H1. }
    assert (I2 : isIdentity mydim mydim (fun i j => rsum cdim (fun k => JiF i k * JF k j)) tol = true).
    { apply isIdentity_spec. intros i j Hi Hj. rewrite (mmul_id mydim cdim JiF JF Ji J T4 T3) by assumption. now apply H2. }
    assert (I3 : nonzero (infinity_norm mydim cdim (fun i j => JtF i j - JF j i)) = false).
    { apply infinity_norm_spec. intros i j Hi Hj. rewrite T1, T3, H3 by assumption. unfold mtr. ring. }
    assert (I4 : nonzero (infinity_norm cdim mydim (fun i j => JitF i j - JiF j i)) = false).
    { apply infinity_norm_spec. intros i j Hi Hj. rewrite T2, T4, H4 by assumption. unfold mtr. ring. }
    assert (I5 : Rltb tol (Rabs (sqrt (detR mydim (forN mydim (fun i jtj => forN mydim (fun j jtj => forN cdim (fun k jtj => mupd jtj i j (jtj i j + JtF i k * JtF j k)) jtj) jtj) mzero)) - ie)) = false).
    { apply Rltb_false'. rewrite (@detR_ext mydim _ (mmul cdim Jt (mtr Jt))); [exact H6|]. intros i j Hi Hj. rewrite (gram_loop mydim cdim JtF i j Hi Hj). apply rsum_ext. intros k Hk. unfold mtr. now rewrite !T1. }
    rewrite I1, I2, I3, I4, I5, (proj2 (Rltb_false' tol _) HL), (proj2 (Rltb_false' ie 0) H5). cbn [negb]. destruct a; [|reflexivity].
    destruct (H7 eq_refl) as (vol & -> & HV). cbn [obind]. now rewrite (proj2 (Rltb_false' tol _) HV).
Qed.

Lemma points_spec id : forall q pass, cg_points mydim cdim tol junk g local (detR mydim) id q pass = Some true <->
  pass = true /\ forall x w, In (x, w) q -> point_passes mydim cdim tol g local id x.
Proof.
  induction q as [|[x w] q IH]; intro pass; cbn [cg_points].
  - split; [intro E; injection E as ->; split; [reflexivity|intros ? ? []]|]. intros [-> _]. reflexivity.
  - split.
    + intro E. destruct (cg_point mydim cdim tol junk g local (detR mydim) id x pass) as [p|] eqn:EP; [|discriminate]. cbn [obind] in E. apply IH in E. destruct E as [-> E].
      apply point_spec in EP. destruct EP as [-> EP]. split; [reflexivity|]. intros x' w' [I|I]; [injection I as <- <-; exact EP|now apply (E x' w')].
    + intros [-> H]. rewrite (proj2 (point_spec id x true)) by (split; [reflexivity|apply (H x w); now left]). cbn [obind]. apply IH. split; [reflexivity|].
      intros x' w' I. apply (H x' w'). now right.
Qed.
End Loops.
