(** gaussNewton: loop invariants. *)
From Coq Require Import PeanoNat NArith ZArith Lia Bool List Reals Lra FunctionalExtensionality.
From Verif Require Import M_Type M_RefTopo M_RefGeo M_Matrix M_Affine M_MultiLinear M_GaussNewton S_Matrix S_GaussNewton P_RSum P_Matrix2 T_Matrix.
Import ListNotations.
Local Open Scope R_scope.

Lemma norm2_nonneg n x : 0 <= norm2 n x.
Proof. apply rsum_nonneg. intros. nra. Qed.
Lemma two_norm_nonneg n x : 0 <= two_norm n x. Proof. apply sqrt_pos. Qed.
Lemma two_norm_0 n x : (forall k, (k < n)%nat -> x k = 0) -> two_norm n x = 0.
Proof. intro H. unfold two_norm, norm2. rewrite rsum_0; [apply sqrt_0|]. intros k Hk. rewrite H by assumption. ring. Qed.

Section G.
Variables (mydim cdim : nat) (j1 j2 : Mat) (f : Vec -> option Vec) (df : Vec -> option Mat) (y : Vec) (o : GNOpts).
Hypothesis Hd : (mydim <= cdim)%nat.
Let th := gn_theta o.
Let inner := Z.to_nat (gn_maxInnerIt o).
Notation res x := (residual_is cdim f y x).

Lemma res_unique x r r' : res x r -> res x r' -> r = r'.
Proof. intros (a & E & ->) (b & E' & ->). rewrite E in E'. now injection E' as ->. Qed.

Lemma search_spec x0 dx r0 : res x0 r0 -> forall n i st x dy r, (0 < n)%nat ->
  gn_search cdim f y o n x0 dx r0 (th ^ i) st = Some (x, dy, r) ->
  exists j fx, (i <= j < i + n)%nat /\ x = (fun k => x0 k - th ^ j * dx k) /\ f x = Some fx /\ dy = (fun k => fx k - y k) /\ r = two_norm cdim dy /\
    (forall l, (i <= l < j)%nat -> no_gain cdim f y th x0 dx l) /\
    (r0 <= r -> forall l, (i <= l < i + n)%nat -> no_gain cdim f y th x0 dx l).
Proof.
  intro R0. induction n; intros i st x dy r Hn H; [lia|]. cbn [gn_search] in H.
  set (x1 := fun k => x0 k - th ^ i * dx k) in *. destruct (f x1) as [fx|] eqn:E; [|discriminate]. cbn [obind] in H.
  destruct (Rltb (two_norm cdim (fun k => fx k - y k)) r0) eqn:L.
  - injection H as <- <- <-. apply Rltb_true in L. exists i, fx. repeat split; auto; try lia; intros; exfalso; first [lia|lra].
  - apply Rltb_false in L. fold th in H.
    assert (NG : no_gain cdim f y th x0 dx i).
    { exists r0, (two_norm cdim (fun k => fx k - y k)). split; [exact R0|]. split; [|exact L]. exists fx. split; [exact E|reflexivity]. }
    replace (th ^ i * th) with (th ^ S i) in H by (cbn; ring).
    destruct n as [|n].
    + cbn in H. injection H as <- <- <-. exists i, fx. repeat split; auto; try lia. intros _ l Hl. replace l with i by lia. exact NG.
    + destruct (IHn (S i) _ x dy r ltac:(lia) H) as (j & fx' & Hj & -> & Ef & -> & -> & N1 & N2).
      exists j, fx'. repeat split; auto; try lia.
      * intros l Hl. destruct (Nat.eq_dec l i) as [->|]; [exact NG|apply N1; lia].
      * intros Hr l Hl. destruct (Nat.eq_dec l i) as [->|]; [exact NG|apply N2; [assumption|lia]].
Qed.

Definition final (n m : nat) (c : GNCode) (z : Vec) : Prop :=
  match c with
  | GN_OK => (n = 0%nat \/ (0 < m)%nat) /\ exists r, res z r /\ r < gn_absTol o
  | GN_JACOBIAN_NOT_INVERTIBLE => (m < n)%nat /\ exists J, df z = Some J /\ ~ row_independent mydim cdim J
  | GN_STAGNATION => (m < n)%nat /\ exists dx, gn_direction mydim cdim f df y z dx /\ forall i, (i < inner)%nat -> no_gain cdim f y th z dx i
  | GN_TOLERANCE_NOT_REACHED => m = n /\ exists r, res z r /\ gn_absTol o <= r
  end.

Lemma loop_spec : (0 < inner)%nat -> forall n x0 fx r c z, f x0 = Some fx ->
  (n = 0%nat -> r = two_norm cdim (fun k => fx k - y k)) ->
  gn_loop mydim cdim j1 j2 f df y o n x0 (fun k => fx k - y k) x0 (two_norm cdim (fun k => fx k - y k)) r = Some (c, z) ->
  exists m, (m <= n)%nat /\ descent mydim cdim f df y th inner m x0 z /\ final n m c z.
Proof.
  intro Hi. induction n; intros x0 fx r c z E Hr H; cbn [gn_loop] in H.
  - exists 0%nat. split; [lia|]. rewrite (Hr eq_refl) in H.
    assert (R0 : res x0 (two_norm cdim (fun k => fx k - y k))) by (exists fx; auto).
    destruct (Rltb (two_norm cdim (fun k => fx k - y k)) (gn_absTol o)) eqn:L; cbn [negb] in H; injection H as <- <-; (split; [constructor|]); cbn.
    + apply Rltb_true in L. eauto.
    + apply Rltb_false in L. eauto.
  - destruct (df x0) as [J|] eqn:EJ; [|discriminate]. cbn [obind] in H.
    set (r0 := two_norm cdim (fun k => fx k - y k)) in *.
    assert (R0 : res x0 r0) by (exists fx; auto).
    destruct (C25_xTRightInvA mydim cdim J (fun k => fx k - y k) j1 j2 Hd) as [H1 H2].
    destruct (Classical_Prop.classic (row_independent mydim cdim J)) as [HR|HR].
    + destruct (H1 HR) as (dx & ED & NE & _). rewrite ED in H. cbn [obind negb] in H. fold inner in H.
      assert (GD : gn_direction mydim cdim f df y x0 dx) by (exists fx, J; auto).
      match type of H with obind ?g _ = _ => destruct g as [[[x dy] r']|] eqn:ES; [|discriminate] end. cbn [obind] in H.
      change 1 with (th ^ 0) in ES. destruct (search_spec x0 dx r0 R0 inner 0 _ x dy r' Hi ES) as (j & fx' & Hj & Ex & Ef & -> & -> & N1 & N2).
      set (r1 := two_norm cdim (fun k => fx' k - y k)) in *.
      destruct (Rltb r1 r0) eqn:L; cbn [negb] in H.
      * apply Rltb_true in L.
        assert (AC : accepted mydim cdim f df y th inner x0 x).
        { exists dx, j, r0, r1. repeat split; auto; [lia|exists fx'; auto|]. intros i Hl. apply N1. lia. }
        destruct (Rltb r1 (gn_absTol o)) eqn:L2.
        -- injection H as <- <-. apply Rltb_true in L2. exists 1%nat. split; [lia|]. split; [econstructor; [exact AC|constructor]|].
           split; [right; lia|]. exists r1. split; [exists fx'; auto|exact L2].
        -- destruct (IHn x fx' r1 c z Ef ltac:(reflexivity) H) as (m & Hm & D & F). exists (S m). split; [lia|]. split; [econstructor; eauto|].
           destruct c; cbn in *; destruct F; split; auto; try lia; right; lia.
      * apply Rltb_false in L. injection H as <- <-. exists 0%nat. split; [lia|]. split; [constructor|]. split; [lia|].
        exists dx. split; [exact GD|]. intros i Hl. apply N2; [exact L|lia].
    + destruct (H2 HR) as (dx & ED). rewrite ED in H. cbn [obind negb] in H. injection H as <- <-.
      exists 0%nat. split; [lia|]. split; [constructor|]. split; [lia|]. eauto.
Qed.

Lemma descent_res n : forall x z r r', descent mydim cdim f df y th inner n x z -> res x r -> res z r' -> r' <= r /\ ((0 < n)%nat -> r' < r).
Proof.
  induction n; intros x z r r' D R1 R2; inversion D; subst.
  - rewrite (res_unique _ _ _ R1 R2). split; [lra|lia].
  - destruct H0 as (dx & j & a & b & _ & _ & _ & Ra & Rb & L & _). rewrite (res_unique _ _ _ R1 Ra) in *.
    destruct (IHn _ _ _ _ H1 Rb R2). split; [lra|]. intros _. lra.
Qed.
Lemma descent_defined n : forall x z, descent mydim cdim f df y th inner n x z -> (exists r, res x r) -> exists r, res z r.
Proof.
  induction n; intros x z D R1; inversion D; subst; [assumption|].
  destruct H0 as (dx & j & a & b & _ & _ & _ & Ra & Rb & L & _). eauto.
Qed.

Lemma search_total : (forall x, f x <> None) -> forall n x0 dx r0 a st, gn_search cdim f y o n x0 dx r0 a st <> None.
Proof.
  intros Ft. induction n; intros; cbn [gn_search]; [discriminate|].
  match goal with |- context [f ?x] => assert (Q := Ft x); destruct (f x); [|congruence] end. cbn [obind].
  destruct (Rltb _ _); [discriminate|apply IHn].
Qed.
Lemma loop_total : (forall x, f x <> None) -> (forall x, df x <> None) -> forall n x dy x0 r0 r, gn_loop mydim cdim j1 j2 f df y o n x dy x0 r0 r <> None.
Proof.
  intros Ft Dt. induction n; intros; cbn [gn_loop]; [destruct (negb _); discriminate|].
  assert (Q := Dt x). destruct (df x) as [J|]; [|congruence]. cbn [obind].
  destruct (C25_xTRightInvA mydim cdim J dy j1 j2 Hd) as [H1 H2].
  destruct (Classical_Prop.classic (row_independent mydim cdim J)) as [HR|HR].
  - destruct (H1 HR) as (dx & -> & _). cbn [obind negb].
    assert (S := search_total Ft (Z.to_nat (gn_maxInnerIt o)) x0 dx r0 1 (x, dy, r)).
    destruct (gn_search _ _ _ _ _ _ _ _ _ _) as [[[x' dy'] r']|]; [|congruence]. cbn [obind].
    destruct (negb _); [discriminate|]. destruct (Rltb _ _); [discriminate|apply IHn].
  - destruct (H2 HR) as (dx & ->). discriminate.
Qed.
End G.

(** ** Frechet derivatives *)
Lemma rsum_abs n (f : nat -> R) : Rabs (rsum n f) <= rsum n (fun i => Rabs (f i)).
Proof. induction n; cbn [rsum]; [rewrite Rabs_R0; lra|]. eapply Rle_trans; [apply Rabs_triang|]. lra. Qed.
Lemma rsum_term n (f : nat -> R) i : (forall j, (j < n)%nat -> 0 <= f j) -> (i < n)%nat -> f i <= rsum n f.
Proof.
  induction n; intros H Hi; [lia|]. cbn [rsum]. assert (0 <= rsum n f) by (apply rsum_nonneg; auto). assert (0 <= f n) by auto.
  destruct (Nat.eq_dec i n) as [->|]; [lra|]. assert (f i <= rsum n f) by (apply IHn; auto; lia). lra.
Qed.
Definition msum (m n : nat) (A : Mat) : R := rsum m (fun i => rsum n (fun j => Rabs (A i j))).
Lemma msum_nonneg m n A : 0 <= msum m n A.
Proof. apply rsum_nonneg. intros. apply rsum_nonneg. intros. apply Rabs_pos. Qed.
Lemma msum_row m n A i : (i < m)%nat -> rsum n (fun j => Rabs (A i j)) <= msum m n A.
Proof. intro Hi. apply (rsum_term m (fun i => rsum n (fun j => Rabs (A i j)))); auto. intros. apply rsum_nonneg. intros. apply Rabs_pos. Qed.
Lemma msum_entry m n A i j : (i < m)%nat -> (j < n)%nat -> Rabs (A i j) <= msum m n A.
Proof. intros Hi Hj. eapply Rle_trans; [|apply msum_row, Hi]. apply (rsum_term n (fun j => Rabs (A i j))); auto. intros. apply Rabs_pos. Qed.

Lemma frechet_meq m n F p D D' : meq n m D D' -> frechet m n F p D -> frechet m n F p D'.
Proof.
  intros HD (Fp & E & H). exists Fp. split; [exact E|]. intros eps He. destruct (H eps He) as (d & Hd & K). exists d. split; [exact Hd|].
  intros h H0 Hh. destruct (K h H0 Hh) as (Fq & EQ & V). exists Fq. split; [exact EQ|]. intros k Hk.
  rewrite (rsum_ext m (fun j => D' k j * h j) (fun j => D k j * h j)); [now apply V|]. intros j Hj. now rewrite HD.
Qed.

Lemma chain m n l G F p Gp A D : frechet m n G p A -> G p = Some Gp -> frechet n l (fun x => Some (F x)) Gp D -> respects n l F ->
  frechet m l (fun x => option_map F (G x)) p (mmul n D A).
Proof.
  intros (Gp' & E & HG) E' (Fg & EF & HF) HR. assert (Gp' = Gp) by congruence. subst Gp'. injection EF as <-.
  exists (F Gp). split; [now rewrite E|]. intros eps He.
  set (CA := msum n m A). set (CD := msum l n D). assert (HA := msum_nonneg n m A : 0 <= CA). assert (HD := msum_nonneg l n D : 0 <= CD).
  set (N := INR n). assert (HN : 0 <= N) by apply pos_INR.
  set (e1 := Rmin 1 (eps / (2 * (CD + 1)))). assert (e1p : 0 < e1) by (apply Rmin_glb_lt; [lra|apply Rdiv_lt_0_compat; lra]).
  assert (e1a : e1 <= 1) by apply Rmin_l. assert (e1b : e1 * (CD + 1) <= eps / 2).
  { apply Rle_trans with (eps / (2 * (CD + 1)) * (CD + 1)); [apply Rmult_le_compat_r; [lra|apply Rmin_r]|]. right. field. lra. }
  assert (HC : 0 <= N * (CA + 1)) by (apply Rmult_le_pos; lra).
  set (e2 := eps / (2 * (N * (CA + 1) + 1))). assert (e2p : 0 < e2) by (apply Rdiv_lt_0_compat; lra).
  assert (e2b : e2 * (N * (CA + 1)) <= eps / 2).
  { apply Rle_trans with (e2 * (N * (CA + 1) + 1)); [apply Rmult_le_compat_l; lra|]. right. unfold e2. field. lra. }
  destruct (HG e1 e1p) as (d1 & d1p & KG). destruct (HF e2 e2p) as (d2 & d2p & KF).
  set (M := INR m). assert (HM : 0 <= M) by apply pos_INR.
  set (d := Rmin d1 (d2 / ((CA + 1) * (M + 1)))). assert (P1 : 0 < (CA + 1) * (M + 1)) by (apply Rmult_lt_0_compat; lra).
  assert (dp : 0 < d) by (apply Rmin_glb_lt; [lra|apply Rdiv_lt_0_compat; lra]).
  exists d. split; [exact dp|]. intros h H0 Hh.
  destruct (KG h H0) as (Gq & EG & VG); [intros j Hj; eapply Rlt_le_trans; [now apply Hh|apply Rmin_l]|].
  set (H := rsum m (fun j => Rabs (h j))). assert (Hp : 0 <= H) by (apply rsum_nonneg; intros; apply Rabs_pos).
  set (u := fun k => if Nat.ltb k n then Gq k - Gp k else 0).
  assert (U : forall k, (k < n)%nat -> Rabs (u k) <= (CA + 1) * H).
  { intros k Hk. unfold u. rewrite (proj2 (Nat.ltb_lt k n) Hk). specialize (VG k Hk). fold H in VG.
    assert (B : Rabs (rsum m (fun j => A k j * h j)) <= CA * H).
    { eapply Rle_trans; [apply rsum_abs|]. unfold H. rewrite <- rsum_scal. apply rsum_le. intros j Hj. rewrite Rabs_mult. apply Rmult_le_compat_r; [apply Rabs_pos|]. now apply msum_entry. }
    replace (Gq k - Gp k) with ((Gq k - Gp k - rsum m (fun j => A k j * h j)) + rsum m (fun j => A k j * h j)) by ring.
    eapply Rle_trans; [apply Rabs_triang|]. nra. }
  assert (HH : (CA + 1) * H < d2).
  { assert (H <= M * d). { unfold H, M. rewrite <- rsum_const. apply rsum_le. intros j Hj. left. now apply Hh. }
    assert (d * ((CA + 1) * (M + 1)) <= d2).
    { apply Rle_trans with (d2 / ((CA + 1) * (M + 1)) * ((CA + 1) * (M + 1))); [apply Rmult_le_compat_r; [lra|apply Rmin_r]|]. right. field. lra. }
    assert ((CA + 1) * H <= (CA + 1) * (M * d)) by (apply Rmult_le_compat_l; lra).
    assert ((CA + 1) * (M * d) < d * ((CA + 1) * (M + 1))); [|lra].
    replace (d * ((CA + 1) * (M + 1))) with ((CA + 1) * (M * d) + (CA + 1) * d) by ring. assert (0 < (CA + 1) * d) by (apply Rmult_lt_0_compat; lra). lra. }
  destruct (KF u) as (Fq & EQ & VF).
  - intros j Hj. unfold u. destruct (Nat.ltb_spec j n); [lia|reflexivity].
  - intros j Hj. eapply Rle_lt_trans; [now apply U|exact HH].
  - injection EQ as <-. exists (F Gq). split; [now rewrite EG|]. intros k Hk.
    rewrite (HR Gq (fun j => Gp j + u j)).
    2:{ intros j Hj. unfold u. rewrite (proj2 (Nat.ltb_lt j n) Hj). ring. }
    2: exact Hk.
    specialize (VF k Hk). fold H.
    assert (SU : rsum n (fun j => Rabs (u j)) <= N * ((CA + 1) * H)) by (unfold N; rewrite <- rsum_const; apply rsum_le; intros; now apply U).
    assert (EM : rsum m (fun j => mmul n D A k j * h j) = rsum n (fun i => D k i * rsum m (fun j => A i j * h j))).
    { unfold mmul. rewrite (rsum_ext m _ (fun j => rsum n (fun i => D k i * (A i j * h j)))) by (intros; rewrite <- rsum_scal_r; apply rsum_ext; intros; ring).
      rewrite rsum_swap. apply rsum_ext. intros. now rewrite rsum_scal. }
    rewrite EM.
    set (X := F (fun j => Gp j + u j) k) in *.
    replace (X - F Gp k - rsum n (fun i => D k i * rsum m (fun j => A i j * h j))) with
      ((X - F Gp k - rsum n (fun j => D k j * u j)) + rsum n (fun i => D k i * (u i - rsum m (fun j => A i j * h j)))).
    2:{ rewrite (rsum_ext n (fun i => D k i * (u i - rsum m (fun j => A i j * h j))) (fun i => D k i * u i - D k i * rsum m (fun j => A i j * h j))) by (intros; ring).
        rewrite rsum_minus. ring. }
    eapply Rle_trans; [apply Rabs_triang|].
    assert (B2 : Rabs (rsum n (fun i => D k i * (u i - rsum m (fun j => A i j * h j)))) <= CD * (e1 * H)).
    { eapply Rle_trans; [apply rsum_abs|]. apply Rle_trans with (rsum n (fun i => Rabs (D k i)) * (e1 * H)).
      - rewrite <- rsum_scal_r. apply rsum_le. intros i Hi. rewrite Rabs_mult. apply Rmult_le_compat_l; [apply Rabs_pos|].
        specialize (VG i Hi). unfold u. rewrite (proj2 (Nat.ltb_lt i n) Hi). exact VG.
      - apply Rmult_le_compat_r; [apply Rmult_le_pos; lra|]. now apply msum_row. }
    assert (B1 : e2 * rsum n (fun j => Rabs (u j)) <= e2 * (N * (CA + 1)) * H).
    { rewrite !Rmult_assoc. apply Rmult_le_compat_l; [lra|exact SU]. }
    assert (e2 * (N * (CA + 1)) * H <= eps / 2 * H) by (apply Rmult_le_compat_r; auto).
    assert (CD * (e1 * H) <= eps / 2 * H).
    { rewrite <- Rmult_assoc. apply Rmult_le_compat_r; [auto|]. nra. }
    lra.
Qed.

Lemma frechet_affine m n o (M : Mat) p : frechet m n (fun x => Some (fun k => o k + rsum m (fun j => M j k * x j))) p (mtr M).
Proof.
  eexists. split; [reflexivity|]. intros eps He. exists 1. split; [lra|]. intros h H0 _. eexists. split; [reflexivity|]. intros k Hk. cbv beta.
  match goal with |- Rabs ?z <= _ => replace z with 0 end.
  - rewrite Rabs_R0. apply Rmult_le_pos; [lra|]. apply rsum_nonneg. intros; apply Rabs_pos.
  - rewrite (rsum_ext m (fun j => M j k * (p j + h j)) (fun j => M j k * p j + M j k * h j)) by (intros; ring). rewrite rsum_plus. unfold mtr. ring.
Qed.

(** linear combinations of scalar functions *)
Lemma frechet_comb m n N (phi : Vec -> nat -> R) (dphi : nat -> Vec) (c : nat -> Vec) p :
  (forall i, (i < N)%nat -> frechet m 1 (fun x => Some (fun _ => phi x i)) p (fun _ => dphi i)) ->
  frechet m n (fun x => Some (fun k => rsum N (fun i => phi x i * c i k))) p (fun k j => rsum N (fun i => dphi i j * c i k)).
Proof.
  intro H. eexists. split; [reflexivity|].
  set (C := msum N n c). assert (HC := msum_nonneg N n c : 0 <= C).
  assert (K : forall eps, 0 < eps -> exists d, 0 < d /\ forall h : Vec, (forall j, (m <= j)%nat -> h j = 0) -> (forall j, (j < m)%nat -> Rabs (h j) < d) ->
     forall i, (i < N)%nat -> Rabs (phi (fun j => p j + h j) i - phi p i - rsum m (fun j => dphi i j * h j)) <= eps * rsum m (fun j => Rabs (h j))).
  { intros eps He. clear C HC. induction N as [|N IH].
    - exists 1. split; [lra|]. intros; lia.
    - destruct IH as (d1 & P1 & K1); [intros; apply H; lia|]. destruct (H N ltac:(lia)) as (Fp & EF & K2). injection EF as <-. destruct (K2 eps He) as (d2 & P2 & K3).
      exists (Rmin d1 d2). split; [now apply Rmin_glb_lt|]. intros h H0 Hh i Hi. destruct (Nat.eq_dec i N) as [->|].
      + destruct (K3 h H0) as (Fq & EQ & V); [intros j Hj; eapply Rlt_le_trans; [now apply Hh|apply Rmin_r]|]. injection EQ as <-. exact (V 0%nat ltac:(lia)).
      + apply K1; auto; [intros j Hj; eapply Rlt_le_trans; [now apply Hh|apply Rmin_l]|lia]. }
  intros eps He. destruct (K (eps / (C + 1))) as (d & Hd & V); [apply Rdiv_lt_0_compat; lra|]. exists d. split; [exact Hd|]. intros h H0 Hh.
  eexists. split; [reflexivity|]. intros k Hk. cbv beta. specialize (V h H0 Hh). set (Hs := rsum m (fun j => Rabs (h j))) in *.
  assert (Hsp : 0 <= Hs) by (apply rsum_nonneg; intros; apply Rabs_pos).
  assert (EM : rsum m (fun j => rsum N (fun i => dphi i j * c i k) * h j) = rsum N (fun i => rsum m (fun j => dphi i j * h j) * c i k)).
  { rewrite (rsum_ext m _ (fun j => rsum N (fun i => (dphi i j * h j) * c i k))) by (intros; rewrite <- rsum_scal_r; apply rsum_ext; intros; ring).
    rewrite rsum_swap. apply rsum_ext. intros. now rewrite rsum_scal_r. }
  rewrite EM, <- !rsum_minus.
  eapply Rle_trans; [apply rsum_abs|]. apply Rle_trans with (rsum N (fun i => Rabs (c i k)) * (eps / (C + 1) * Hs)).
  - rewrite <- rsum_scal_r. apply rsum_le. intros i Hi. specialize (V i Hi).
    match goal with |- Rabs ?z <= _ => replace z with (c i k * (phi (fun j => p j + h j) i - phi p i - rsum m (fun j => dphi i j * h j))) by ring end.
    rewrite Rabs_mult. apply Rmult_le_compat_l; [apply Rabs_pos|exact V].
  - rewrite <- Rmult_assoc. apply Rmult_le_compat_r; [exact Hsp|].
    assert (B : rsum N (fun i => Rabs (c i k)) <= C).
    { unfold C, msum. apply rsum_le. intros i Hi. apply (rsum_term n (fun j => Rabs (c i j))); auto. intros; apply Rabs_pos. }
    apply Rle_trans with (C * (eps / (C + 1))); [apply Rmult_le_compat_r; [left; apply Rdiv_lt_0_compat; lra|exact B]|].
    apply (Rmult_le_reg_r (C + 1)); [lra|]. field_simplify; [|lra]. nra.
Qed.
