(** C89: what test-axisalignedcubegeometry.cc checks. *)
From Coq Require Import PeanoNat NArith ZArith Bool List Reals Lia Lra.
From Verif Require Import M_Type M_RefTopo M_RefGeo M_Matrix M_Affine M_MultiLinear M_GaussNewton M_LocalFE M_CheckGeo M_RefineTest M_CubeTest
  S_Topo S_RefGeo S_MultiLinear S_Agree S_RefineTest P_Det P_AACube P_RefTopo2 P_ML1 P_ML2 P_Agree P_Agree2 P_CheckGeo T_Affine P_RefTopo3 P_RefineTest.
Import ListNotations.
Local Open Scope R_scope.

(** ** sets of axes as bits *)
Lemma bcount_ext n a b : (forall i, (i < n)%nat -> a i = b i) -> bcount n a = bcount n b.
Proof. induction n; intro H; [reflexivity|]. cbn [bcount]. rewrite IHn by (intros; apply H; lia). now rewrite H by lia. Qed.
Lemma low_bits n i k : (k < n)%nat -> (i < 2 ^ n)%nat -> Nat.testbit (2 ^ n + i) k = Nat.testbit i k.
Proof.
  intros Hk Hi. rewrite <- (Nat.mod_pow2_bits_low (2 ^ n + i) n k) by exact Hk. f_equal. symmetry.
  apply (Nat.mod_unique _ _ 1); lia.
Qed.
Lemma top_bit n i : (i < 2 ^ n)%nat -> Nat.testbit i n = false /\ Nat.testbit (2 ^ n + i) n = true.
Proof.
  intro Hi. assert (P : (2 ^ n <> 0)%nat) by (apply Nat.pow_nonzero; lia). rewrite !Nat.testbit_eqb. split.
  - now rewrite Nat.div_small.
  - replace ((2 ^ n + i) / 2 ^ n)%nat with 1%nat; [reflexivity|]. apply (Nat.div_unique _ _ 1 i); lia.
Qed.
Lemma bcount_low n i : (i < 2 ^ n)%nat -> bcount (S n) (Nat.testbit i) = bcount n (Nat.testbit i).
Proof. intro H. cbn [bcount]. rewrite (proj1 (top_bit n i H)). lia. Qed.
Lemma bcount_high n i : (i < 2 ^ n)%nat -> bcount (S n) (Nat.testbit (2 ^ n + i)) = S (bcount n (Nat.testbit i)).
Proof. intro H. cbn [bcount]. rewrite (proj2 (top_bit n i H)), (bcount_ext n _ (Nat.testbit i)); [lia|]. intros k Hk. now apply low_bits. Qed.
Lemma full_bits n i : (i < 2 ^ n)%nat -> (bcount n (Nat.testbit i) = n <-> i = 2 ^ n - 1)%nat.
Proof.
  revert i. induction n as [|n IH]; intros i Hi; [cbn in *; lia|]. assert (P : (2 ^ n <> 0)%nat) by (apply Nat.pow_nonzero; lia). cbn [Nat.pow] in *.
  destruct (Nat.lt_ge_cases i (2 ^ n)) as [L|L].
  - rewrite bcount_low by exact L. assert (B := bcount_le n (Nat.testbit i)). lia.
  - replace i with (2 ^ n + (i - 2 ^ n))%nat by lia. rewrite bcount_high by lia. specialize (IH (i - 2 ^ n)%nat ltac:(lia)). lia.
Qed.
Lemma count_sets n : forall d, length (filter (fun i => Nat.eqb (bcount n (Nat.testbit i)) d) (seq 0 (2 ^ n))) = binomial n d.
Proof.
  assert (FE : forall (f g : nat -> bool) m a, (forall i, (i < m)%nat -> f (a + i)%nat = g i) -> length (filter f (seq a m)) = length (filter g (seq 0 m))).
  { intros f g m. revert f g. induction m as [|m IHm]; intros f g a H; [reflexivity|]. rewrite !seq_S, !filter_app, !app_length. rewrite (IHm f g a) by (intros; apply H; lia).
    cbn [filter Nat.add]. rewrite (H m) by lia. destruct (g m); reflexivity. }
  induction n as [|n IH]; intro d; [destruct d; reflexivity|].
  replace (2 ^ S n)%nat with (2 ^ n + 2 ^ n)%nat by (cbn [Nat.pow]; lia). rewrite seq_app, filter_app, app_length. cbn [Nat.add].
  rewrite (FE _ (fun i => Nat.eqb (bcount n (Nat.testbit i)) d) _ 0%nat) by (intros i Hi; cbn [Nat.add]; now rewrite bcount_low). rewrite IH.
  rewrite (FE _ (fun i => Nat.eqb (S (bcount n (Nat.testbit i))) d) _ (2 ^ n)%nat) by (intros i Hi; now rewrite bcount_high).
  destruct d as [|d].
  - rewrite binomial_0. replace (filter _ _) with (@nil nat); [rewrite binomial_0; reflexivity|]. symmetry. clear. induction (seq 0 (2 ^ n)); [reflexivity|]. exact IHl.
  - rewrite (binomial_S n d). rewrite <- (IH d). rewrite Nat.add_comm. f_equal.
Qed.

(** the sets of axes one call goes through *)
Definition tested (dim coorddim : nat) : list nat := filter (fun i => Nat.eqb (bcount coorddim (Nat.testbit i)) dim) (seq 0 (2 ^ coorddim - 1)).
(** all sets with dim elements, except the set of all axes *)
Theorem C89_tested : forall dim coorddim,
  (dim <> coorddim -> length (tested dim coorddim) = binomial coorddim dim) /\ tested coorddim coorddim = [] /\
  forall i, In i (tested dim coorddim) <-> (i < 2 ^ coorddim)%nat /\ T_Affine.rank (Nat.testbit i) coorddim = dim /\ dim <> coorddim.
Proof.
  intros dim cd. assert (P : (2 ^ cd <> 0)%nat) by (apply Nat.pow_nonzero; lia).
  assert (I : forall d i, In i (tested d cd) <-> (i < 2 ^ cd)%nat /\ bcount cd (Nat.testbit i) = d /\ d <> cd).
  { intros d i. unfold tested. rewrite filter_In, in_seq, Nat.eqb_eq. split.
    - intros [A B]. split; [lia|]. split; [exact B|]. intros ->. apply full_bits in B; lia.
    - intros (A & B & C). split; [|exact B]. destruct (Nat.eq_dec i (2 ^ cd - 1)) as [E|E]; [|lia]. exfalso. apply C. rewrite <- B. now apply full_bits. }
  split; [|split].
  - intro N. rewrite <- count_sets. unfold tested. replace (2 ^ cd)%nat with (S (2 ^ cd - 1)) at 2 by lia. rewrite seq_S, filter_app, app_length. cbn [Nat.add filter].
    replace (Nat.eqb _ dim) with false; [cbn; lia|]. symmetry. apply Nat.eqb_neq. rewrite (proj2 (full_bits cd (2 ^ cd - 1) ltac:(lia)) eq_refl). congruence.
  - destruct (tested cd cd) as [|i l] eqn:E; [reflexivity|]. exfalso. assert (H : In i (tested cd cd)) by (rewrite E; now left). apply I in H. now destruct H as (_ & _ & H).
  - intro i. rewrite <- rank_bcount. apply I.
Qed.
Print Assumptions C89_tested.

Section Any.
Variables (tolc : R) (junk : Mat) (determinant : nat -> Mat -> R) (rule : N -> nat -> option Rule).
Notation geometry := (ct_geometry tolc junk determinant rule).
Notation zero := (ct_zero tolc junk determinant rule).
Notation nonzero_ := (ct_nonzero tolc junk determinant rule).

(** three tests per geometry *)
Theorem C89_geometry : forall dim coorddim g result b a, rt_check tolc junk determinant rule dim coorddim g = Some b -> gi_affine (fst g) = Some a ->
  geometry dim coorddim g result = Some (verdict result [b; a; b]).
Proof.
  intros dim cd g result b a E A. unfold ct_geometry, ct_affine. rewrite E, A. cbn [obind]. rewrite !verdict_cons, verdict_nil. unfold rt_collect. destruct a, b; reflexivity.
Qed.
Lemma rounds_tested make dim cd : forall n i result,
  ct_rounds tolc junk determinant rule make dim cd n i result =
  fold_left (fun o j => obind o (fun result => obind (make dim cd (fun _ => -1) (fun _ => 3) (Nat.testbit j)) (fun g => geometry dim cd g result)))
    (filter (fun i => Nat.eqb (bcount cd (Nat.testbit i)) dim) (seq i n)) (Some result).
Proof.
  assert (FN : forall f (l : list nat), fold_left (fun (o : option nat) j => obind o (f j)) l None = None) by (induction l; auto).
  induction n as [|n IH]; intros i result; [reflexivity|]. cbn [ct_rounds seq filter]. destruct (Nat.eqb (bcount cd (Nat.testbit i)) dim); cbn [negb]; [|apply IH].
  cbn [fold_left obind]. destruct (make dim cd _ _ (Nat.testbit i)) as [g|]; cbn [obind]; [|now rewrite FN]. destruct (geometry dim cd g result) as [r|]; cbn [obind]; [apply IH|now rewrite FN].
Qed.
(** geometries of full dimension are not tested by the second function, whatever the constructor does *)
Theorem C89_full_untested : forall make dim result, nonzero_ make dim dim result = Some result.
Proof. intros make dim result. unfold ct_nonzero. rewrite rounds_tested. change (filter _ _) with (tested dim dim). now rewrite (proj1 (proj2 (C89_tested dim dim))). Qed.
(** what the program looks at: cubes of full dimension only with lower corner 0 and upper corner 1 *)
Theorem C89_depends : forall make make',
  (forall d cd axes, (d <= 3)%nat -> (d = cd \/ (d = 0 /\ cd = 3)%nat) -> make' d cd (fun _ => 0) (fun _ => 1) axes = make d cd (fun _ => 0) (fun _ => 1) axes) ->
  (forall d cd axes, (d < cd <= 3)%nat -> make' d cd (fun _ => -1) (fun _ => 3) axes = make d cd (fun _ => -1) (fun _ => 3) axes) ->
  ct_main tolc junk determinant rule make' = ct_main tolc junk determinant rule make.
Proof.
  intros make make' H1 H2.
  assert (Z : forall d cd r, (d <= 3)%nat -> (d = cd \/ (d = 0 /\ cd = 3)%nat) -> zero make' d cd r = zero make d cd r) by (intros; unfold ct_zero; now rewrite H1).
  assert (NZ : forall d cd r, (d < cd <= 3)%nat -> nonzero_ make' d cd r = nonzero_ make d cd r).
  { intros d cd r L. unfold ct_nonzero. generalize (2 ^ cd - 1)%nat at 1 2. intro n. revert r. generalize 0%nat. induction n as [|n IH]; intros i r; [reflexivity|]. cbn [ct_rounds].
    destruct (negb _); [apply IH|]. rewrite H2 by exact L. destruct (make d cd _ _ _); [cbn [obind]|reflexivity]. destruct (geometry _ _ _ _); [apply IH|reflexivity]. }
  assert (OB : forall (o o' : option nat) (f f' : nat -> option nat), o = o' -> (forall r, f r = f' r) -> obind o f = obind o' f') by (intros o o' f f' -> E; destruct o'; [apply E|reflexivity]).
  unfold ct_main. repeat (apply OB; [solve [apply Z; lia | apply NZ; lia | now rewrite !C89_full_untested]|intro]). apply Z; lia.
Qed.
End Any.
Print Assumptions C89_geometry.
Print Assumptions C89_full_untested.
Print Assumptions C89_depends.

Section Library.
Variables (tolc : R) (junk : Mat) (rule : N -> nat -> option Rule).
Hypothesis HT : 0 < tolc.
(** there is a rule *)
Definition ruled (d : nat) : Prop := exists q, rule (gt_id (cube d)) d = Some q.
Lemma cubT_smooth tol T : cubT T -> forall x, smooth tol T x.
Proof. induction T as [|b IH|b IH]; intros C x; cbn in *; auto. Qed.
Lemma ruled_good d : (d < 256)%nat -> ruled d -> goodRule (1 / 4) rule (gt_id (cube d)) d.
Proof. intros L (q & E). exists q. split; [exact E|]. intros x w _. left. apply cubT_smooth. now apply cube_id. Qed.

(** one geometry between two corners whose extents along the axes are the same *)
Lemma lib_geometry dim cd (l u : R) axes result : (dim < 256)%nat -> ruled dim -> l < u -> T_Affine.rank axes cd = dim ->
  tolc < (u - l) / 2 \/ (u - l) ^ dim < tolc ->
  exists g, ct_library dim cd (fun _ => l) (fun _ => u) axes = Some g /\
    ct_geometry tolc junk detR rule dim cd g result = Some (if Rltb ((u - l) ^ dim) tolc then 1%nat else rt_pass result).
Proof.
  intros Hd HR LU RK HB. destruct (proj1 (proj2 C29_constructors) dim cd (fun _ => l) (fun _ => u) axes RK) as (g & E & W & HG).
  exists (rt_aac dim cd g). unfold ct_library. rewrite E. split; [reflexivity|].
  assert (RC := rank_bcount axes cd).
  assert (V : aac_volume dim cd g = (u - l) ^ dim).
  { rewrite (proj1 (C29_volume dim cd g W)).
    assert (F : filter (ac_axes g) (seq 0 cd) = filter axes (seq 0 cd)) by (apply filter_ext_in; intros i Hi; apply in_seq in Hi; apply HG; lia).
    rewrite F. rewrite <- RK. unfold T_Affine.rank.
    assert (A : forall i, In i (filter axes (seq 0 cd)) -> ac_upper g i - ac_lower g i = u - l).
    { intros i Hi. apply filter_In in Hi. destruct Hi as [Hi Ai]. apply in_seq in Hi. destruct (HG i ltac:(lia)) as (-> & _ & U). rewrite U, Ai. reflexivity. }
    revert A. generalize (filter axes (seq 0 cd)). clear. intros L A. induction L as [|i L IH]; [reflexivity|]. cbn [map fold_right length pow]. rewrite A by now left. rewrite IH; [reflexivity|]. intros; apply A; now right. }
  assert (DL : (dim <= cd)%nat) by (rewrite <- RK, <- RC; apply bcount_le).
  rewrite (C89_geometry tolc junk detR rule dim cd _ result (negb (Rltb ((u - l) ^ dim) tolc)) true).
  - f_equal. destruct (Rltb ((u - l) ^ dim) tolc); cbn [negb]; [apply verdict_bad; now left|]. apply verdict_all; [|discriminate]. intros b [<-|[<-|[<-|[]]]]; reflexivity.
  - rewrite <- V. apply (aac_check (1 / 4) tolc junk rule ltac:(lra) dim cd g ((u - l) / 2)); auto; try lra.
    + intros i Hi A. destruct (HG i Hi) as (-> & A' & U). rewrite U. rewrite A' in A. rewrite A. exact LU.
    + now apply ruled_good.
    + intro Pd. destruct (bcount_surj axes cd 0) as (i & Hi & A & _); [rewrite RC, RK; exact Pd|]. exists i. split; [exact Hi|].
      destruct (HG i Hi) as (L1 & A' & U). rewrite A', A, L1, U, A. split; [reflexivity|lra].
  - reflexivity.
Qed.
(** the first function accepts the unit cube in every dimension *)
Theorem C89_zero : forall dim cd result, (dim < 256)%nat -> (dim <= cd)%nat -> ruled dim -> tolc < 1 / 2 \/ 1 < tolc ->
  ct_zero tolc junk detR rule ct_library dim cd result = Some (if Rltb 1 tolc then 1%nat else rt_pass result).
Proof.
  intros dim cd result Hd Hc HR HB. unfold ct_zero.
  assert (AX : forall d k, forN d (fun i (axes : nat -> bool) k => if Nat.eqb k i then true else axes k) (fun _ => false) k = Nat.ltb k d).
  { induction d as [|d IH]; intro k; [reflexivity|]. cbn [forN]. rewrite IH. destruct (Nat.eqb_spec k d), (Nat.ltb_spec k d), (Nat.ltb_spec k (S d)); lia || reflexivity. }
  set (axes := forN dim _ _).
  assert (RK : T_Affine.rank axes cd = dim).
  { rewrite <- rank_bcount. rewrite (bcount_ext cd _ (fun k => Nat.ltb k dim)) by (intros; apply AX).
    clear - Hc. induction cd as [|cd IH]; [cbn; lia|]. cbn [bcount]. destruct (Nat.eq_dec dim (S cd)) as [->|N].
    - rewrite (proj2 (Nat.ltb_lt _ _)) by lia. enough (bcount cd (fun k => Nat.ltb k (S cd)) = cd) by lia.
      clear. assert (G : forall n m, (n <= m)%nat -> bcount n (fun k => Nat.ltb k m) = n); [|apply G; lia].
      induction n as [|n IH]; intros m H; [reflexivity|]. cbn [bcount]. rewrite IH, (proj2 (Nat.ltb_lt n m)) by lia. lia.
    - rewrite (proj2 (Nat.ltb_ge _ _)) by lia. rewrite IH by lia. lia. }
  assert (PW : (1 - 0) ^ dim = 1) by (rewrite Rminus_0_r; apply pow1).
  destruct (lib_geometry dim cd 0 1 axes result Hd HR ltac:(lra) RK ltac:(rewrite PW; lra)) as (g & E & G).
  rewrite E. cbn [obind]. rewrite G, PW. reflexivity.
Qed.
(** the second one all faces of the cube from -1 to 3 *)
Theorem C89_nonzero : forall dim cd result, (dim < 256)%nat -> (dim < cd)%nat -> ruled dim -> tolc < 2 \/ 4 ^ dim < tolc ->
  ct_nonzero tolc junk detR rule ct_library dim cd result = Some (if Rltb (4 ^ dim) tolc then 1%nat else rt_pass result).
Proof.
  intros dim cd result Hd Hc HR HB. unfold ct_nonzero. rewrite rounds_tested. change (filter _ _) with (tested dim cd).
  assert (N : tested dim cd <> []).
  { intro E. destruct (C89_tested dim cd) as (L & _). rewrite E in L. specialize (L ltac:(lia)). assert (B := binomial_pos cd dim ltac:(lia)). cbn in L. lia. }
  assert (I := proj2 (proj2 (C89_tested dim cd))).
  assert (PW : 3 - -1 = 4) by lra.
  set (code := fun r => if Rltb (4 ^ dim) tolc then 1%nat else rt_pass r).
  assert (CC : forall r, code (code r) = code r) by (intro r; unfold code; destruct (Rltb (4 ^ dim) tolc); [reflexivity|]; unfold rt_pass; destruct (Nat.eqb r 77) eqn:E; [reflexivity|now rewrite E]).
  assert (S1 : forall i r, In i (tested dim cd) ->
    obind (ct_library dim cd (fun _ => -1) (fun _ => 3) (Nat.testbit i)) (fun g => ct_geometry tolc junk detR rule dim cd g r) = Some (code r)).
  { intros i r Hi. apply I in Hi. destruct Hi as (_ & RK & _). destruct (lib_geometry dim cd (-1) 3 (Nat.testbit i) r Hd HR ltac:(lra) RK ltac:(rewrite PW; lra)) as (g & E & G).
    rewrite E. cbn [obind]. rewrite G, PW. reflexivity. }
  change (if Rltb (4 ^ dim) tolc then 1%nat else rt_pass result) with (code result). clear I.
  assert (G : forall l r, (forall i, In i l -> In i (tested dim cd)) -> fold_left (fun o j => obind o (fun result => obind (ct_library dim cd (fun _ => -1) (fun _ => 3) (Nat.testbit j)) (fun g => ct_geometry tolc junk detR rule dim cd g result))) l (Some r)
      = Some (match l with [] => r | _ => code r end)).
  { induction l as [|i l IH]; intros r H; [reflexivity|]. cbn [fold_left obind]. rewrite S1 by (apply H; now left). rewrite IH by (intros; apply H; now right). destruct l; [reflexivity|now rewrite CC]. }
  rewrite G by auto. destruct (tested dim cd); [congruence|reflexivity].
Qed.
(** the program accepts the library, for tolerances up to one half *)
Theorem C89_main : (forall d, (d <= 3)%nat -> ruled d) -> tolc < 1 / 2 -> ct_main tolc junk detR rule ct_library = Some 0%nat.
Proof.
  intros HR L. unfold ct_main.
  assert (Z : forall d cd r, (d <= 3)%nat -> (d <= cd)%nat -> ct_zero tolc junk detR rule ct_library d cd r = Some (rt_pass r)).
  { intros d cd r H1 H2. rewrite C89_zero by (auto; lia). replace (Rltb 1 tolc) with false; [reflexivity|]. symmetry. apply Rltb_false'. lra. }
  assert (NZ : forall d cd r, (d <= 3)%nat -> (d < cd)%nat -> ct_nonzero tolc junk detR rule ct_library d cd r = Some (rt_pass r)).
  { intros d cd r H1 H2. rewrite C89_nonzero by (auto; lia || (left; lra)). replace (Rltb _ tolc) with false; [reflexivity|]. symmetry. apply Rltb_false'. assert (1 <= 4 ^ d) by (apply pow_R1_Rle; lra). lra. }
  rewrite !Z by lia. cbn [obind]. repeat (first [rewrite Z by lia | rewrite NZ by lia | rewrite C89_full_untested]; cbn [obind]). reflexivity.
Qed.
(** "the program notices a wrong geometry": not if cubes of full dimension are always the unit cube *)
Definition unitCubes (dim coorddim : nat) (lower upper : Vec) (axes : nat -> bool) : option Geo :=
  if Nat.eqb dim coorddim then ct_library dim coorddim (fun _ => 0) (fun _ => 1) axes else ct_library dim coorddim lower upper axes.
Theorem C89_unit_cubes_refuted : (forall d, (d <= 3)%nat -> ruled d) -> tolc < 1 / 2 -> ct_main tolc junk detR rule unitCubes = Some 0%nat.
Proof.
  intros HR L. rewrite (C89_depends tolc junk detR rule ct_library); [now apply C89_main|..].
  - intros d cd axes _ _. unfold unitCubes. destruct (Nat.eqb d cd); reflexivity.
  - intros d cd axes H. unfold unitCubes. now rewrite (proj2 (Nat.eqb_neq d cd)) by lia.
Qed.
End Library.
Print Assumptions C89_zero.
Print Assumptions C89_nonzero.
Print Assumptions C89_main.
Print Assumptions C89_unit_cubes_refuted.

(** the faces of the cube in three dimensions: bits 3, 5 and 6; all axes are bits 7 *)
Example C89_ex_tested : tested 2 3 = [3; 5; 6]%nat /\ tested 3 3 = [] /\ tested 0 2 = [0]%nat.
Proof. repeat split. Qed.
Definition oneRule (id : N) (d : nat) : option Rule := Some [((fun _ => 1 / 2), 1)].
Example C89_ex_main : ct_main (1 / 1000) mzero detR oneRule ct_library = Some 0%nat /\ ct_main (1 / 1000) mzero detR oneRule unitCubes = Some 0%nat.
Proof. split; [apply C89_main|apply C89_unit_cubes_refuted]; try lra; intros d _; eexists; reflexivity. Qed.
(** with a tolerance of 2 the points fail *)
Example C89_ex_tolerance : ct_nonzero (3 / 2) mzero detR oneRule ct_library 0 3 77 = Some 1%nat /\ ct_nonzero (3 / 2) mzero detR oneRule ct_library 1 3 77 = Some 0%nat.
Proof.
  split; (rewrite C89_nonzero; [|lra|lia|lia|eexists; reflexivity|left; lra]).
  - replace (Rltb _ _) with true; [reflexivity|]. symmetry. apply Rltb_true'. cbn. lra.
  - replace (Rltb _ _) with false; [reflexivity|]. symmetry. apply Rltb_false'. cbn. lra.
Qed.
(** the wrong geometry really is wrong: the corner 3 of the cube from -1 to 3 *)
Example C89_ex_wrong : exists g, unitCubes 1 1 (fun _ => -1) (fun _ => 3) (fun _ => true) = Some g /\ gi_volume (fst g) = Some 1 /\
  exists h, ct_library 1 1 (fun _ => -1) (fun _ => 3) (fun _ => true) = Some h /\ gi_volume (fst h) = Some 4.
Proof.
  eexists. split; [reflexivity|]. split; [cbn; f_equal; lra|]. eexists. split; [reflexivity|]. cbn. f_equal. lra.
Qed.
