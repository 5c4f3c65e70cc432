(** The code of M_RefTopo computes the abstract face lattice of S_Topo. *)
From Coq Require Import NArith PeanoNat Bool List Lia Sorted.
From Verif Require Import M_Type M_RefTopo P_Type P_Type2 S_Topo P_Topo.
Import ListNotations.

Lemma isPrism_bit id d : isPrism id (S d) 0 = N.testbit id (N.of_nat d) || (d =? 0).
Proof.
  unfold isPrism. rewrite land_bit_eq0, negb_involutive, lor1_testbit.
  replace (S d - 0 - 1) with d by lia. f_equal. destruct d; reflexivity.
Qed.

Lemma baseId_testbit id d k :
  N.testbit (baseTopologyId id (S d) 1) (N.of_nat k) = N.testbit id (N.of_nat k) && (k <? d).
Proof.
  unfold baseTopologyId. replace (S d - 1) with d by lia. rewrite testbit_land_pred. f_equal.
  destruct (N.ltb_spec (N.of_nat k) (N.of_nat d)), (Nat.ltb_spec k d); auto; lia.
Qed.

Lemma baseId_lt id d : (baseTopologyId id (S d) 1 < bit d)%N.
Proof. unfold baseTopologyId. replace (S d - 1) with d by lia. apply land_pred_lt. Qed.

Lemma topo_of_base id d : topo_of (baseTopologyId id (S d) 1) d = topo_of id d.
Proof.
  apply topo_of_ext. intros k Hk. rewrite baseId_testbit.
  destruct (Nat.ltb_spec k d); [apply andb_true_r|lia].
Qed.

(** the two ways the code can see a topology of positive dimension *)
Lemma topo_cases id d :
  (isPrism id (S d) 0 = true /\ topo_of id (S d) = Pri (topo_of id d))
  \/ (isPrism id (S d) 0 = false /\ topo_of id (S d) = Pyr (topo_of id d))
  \/ (isPrism id (S d) 0 = true /\ topo_of id (S d) = Pyr Pt /\ d = 0).
Proof.
  rewrite isPrism_bit. cbn [topo_of]. destruct (N.testbit id (N.of_nat d)); [left; auto|].
  destruct d; [right; right|right; left]; auto.
Qed.


Lemma size_tsize dim : forall id c, c <= dim -> size id dim c = tsize (topo_of id dim) c.
Proof.
  induction dim as [|d IH]; intros id c Hc.
  - replace c with 0 by lia. reflexivity.
  - destruct c as [|c].
    + cbn [size]. now rewrite tsize_0.
    + cbn [size]. rewrite (IH _ c), topo_of_base by lia.
      assert (B : forall x, (if S c <? S d then size (baseTopologyId id (S d) 1) d (S c) else x)
                  = if S c <? S d then tsize (topo_of id d) (S c) else x).
      { intros x. destruct (Nat.ltb_spec (S c) (S d)); [|reflexivity].
        now rewrite IH, topo_of_base by lia. }
      rewrite !B.
      destruct (topo_cases id d) as [[-> ->]|[[-> ->]|(-> & -> & ->)]].
      * rewrite tsize_PriS. destruct (Nat.ltb_spec (S c) (S d)); [lia|].
        rewrite (tsize_big _ (S c)) by (rewrite tdim_topo_of; lia). lia.
      * rewrite tsize_PyrS, tdim_topo_of.
        destruct (Nat.ltb_spec (S c) (S d)), (Nat.eqb_spec (S c) (S d)); try lia.
        rewrite (tsize_big _ (S c)) by (rewrite tdim_topo_of; lia). lia.
      * replace c with 0 by lia. reflexivity.
Qed.

Lemma size_base id d c : c <= d ->
  size (baseTopologyId id (S d) 1) d c = tsize (topo_of id d) c.
Proof. intros H. now rewrite size_tsize, topo_of_base. Qed.

Lemma size_base_if id d c x : S c <= S d ->
  (if S c <? S d then size (baseTopologyId id (S d) 1) d (S c) else x)
  = if S c <? S d then tsize (topo_of id d) (S c) else x.
Proof. intros H. destruct (Nat.ltb_spec (S c) (S d)); [|reflexivity]. now rewrite size_base by lia. Qed.

Lemma size_base_if0 id d c : S c <= S d ->
  (if S c <? S d then size (baseTopologyId id (S d) 1) d (S c) else 0) = tsize (topo_of id d) (S c).
Proof.
  intros H. destruct (Nat.ltb_spec (S c) (S d)).
  - now rewrite size_base by lia.
  - symmetry. apply tsize_big. rewrite tdim_topo_of. lia.
Qed.

Lemma topo_of_lor id n : (id < bit n)%N -> topo_of (N.lor id (N.shiftl 1 (N.of_nat n))) (S n)
                         = Pri (topo_of id n).
Proof.
  intros H. cbn [topo_of]. fold (bit n). rewrite N.lor_spec, bit_testbit, N.eqb_refl, orb_true_r.
  f_equal. apply topo_of_ext. intros k Hk. rewrite N.lor_spec, bit_testbit.
  destruct (N.eqb_spec (N.of_nat k) (N.of_nat n)); [lia|]. apply orb_false_r.
Qed.

Lemma topo_of_low id n : (id < bit n)%N -> topo_of id (S n) = Pyr (topo_of id n).
Proof.
  intros H. cbn [topo_of]. rewrite (proj1 (lt_bit_bits _ _) H) by lia. reflexivity.
Qed.

(** subTopologyId is the id of the topology of the face *)
Lemma subTopologyId_spec dim : forall id f,
  (id < bit dim)%N -> is_face (topo_of id dim) f ->
  let c := fcod (topo_of id dim) f in
  let s := subTopologyId id dim c (fidx (topo_of id dim) f) in
  topo_of s (dim - c) = ftype (topo_of id dim) f /\ (s < bit (dim - c))%N.
Proof.
  induction dim as [|d IH]; intros id f Hid Hf.
  - destruct f; simpl in *; try contradiction. rewrite bit_0 in *. auto.
  - intros c s. subst s. pose proof (fcod_le _ _ Hf) as Hc. fold c in Hc. rewrite tdim_topo_of in Hc.
    destruct c as [|c1] eqn:Ec; subst c.
    { cbn [subTopologyId]. rewrite Nat.sub_0_r. split; [|assumption].
      apply fcod_0_whole in Ec; [|assumption]. subst f. symmetry. apply whole_face. }
    cbn [subTopologyId]. rewrite size_base_if0 by lia. rewrite (size_base id d c1) by lia.
    specialize (IH (baseTopologyId id (S d) 1)). rewrite topo_of_base in IH.
    set (B := topo_of id d) in *.
    assert (IH' : forall f0, is_face B f0 ->
         topo_of (subTopologyId (baseTopologyId id (S d) 1) d (fcod B f0) (fidx B f0)) (d - fcod B f0)
         = ftype B f0 /\
         (subTopologyId (baseTopologyId id (S d) 1) d (fcod B f0) (fidx B f0) < bit (d - fcod B f0))%N)
      by (intros; apply IH; [apply baseId_lt|assumption]).
    destruct (topo_cases id d) as [[Ep Et]|[[Ep Et]|(Ep & Et & Ed)]]; fold B in Et; rewrite Et in *; rewrite Ep.
    + destruct f; cbn [is_face] in Hf; try contradiction; cbn [fcod] in Ec; cbn [fidx ftype];
        specialize (IH' _ Hf); pose proof (fidx_lt B f Hf) as L; pose proof (fcod_le B f Hf) as LC;
        unfold B in LC at 2; rewrite tdim_topo_of in LC.
      * rewrite Ec in *. destruct (Nat.ltb_spec (fidx B f) (tsize B (S c1))); [|lia].
        replace (S d - S c1 - 1) with (d - S c1) by lia.
        replace (S d - S c1) with (S (d - S c1)) by lia.
        destruct IH' as [IH1 IH2]. rewrite topo_of_lor by assumption. split; [now f_equal|].
        apply lor_bit_lt. assumption.
      * injection Ec as Ec. rewrite Ec in *.
        destruct (Nat.ltb_spec (tsize B (S c1) + fidx B f) (tsize B (S c1))); [lia|].
        destruct (Nat.ltb_spec (tsize B (S c1) + fidx B f) (tsize B (S c1) + tsize B c1)); [|lia].
        replace (tsize B (S c1) + fidx B f - tsize B (S c1)) with (fidx B f) by lia.
        replace (S d - S c1) with (d - c1) by lia. assumption.
      * injection Ec as Ec. rewrite Ec in *.
        destruct (Nat.ltb_spec (tsize B (S c1) + tsize B c1 + fidx B f) (tsize B (S c1))); [lia|].
        destruct (Nat.ltb_spec (tsize B (S c1) + tsize B c1 + fidx B f) (tsize B (S c1) + tsize B c1)); [lia|].
        replace (tsize B (S c1) + tsize B c1 + fidx B f - (tsize B (S c1) + tsize B c1)) with (fidx B f) by lia.
        replace (S d - S c1) with (d - c1) by lia. assumption.
    + destruct f; cbn [is_face] in Hf; try contradiction; cbn [fcod] in Ec; cbn [fidx ftype].
      * specialize (IH' _ Hf); pose proof (fidx_lt B f Hf) as L.
        injection Ec as Ec. rewrite Ec in *.
        destruct (Nat.ltb_spec (fidx B f) (tsize B c1)); [|lia].
        replace (S d - S c1) with (d - c1) by lia. assumption.
      * specialize (IH' _ Hf); pose proof (fidx_lt B f Hf) as L; pose proof (fcod_le B f Hf) as LC;
        unfold B in LC at 2; rewrite tdim_topo_of in LC.
        rewrite Ec in *. destruct (Nat.ltb_spec (tsize B c1 + fidx B f) (tsize B c1)); [lia|].
        destruct (Nat.ltb_spec (S c1) (S d)); [|lia].
        rewrite N.shiftl_0_l, N.lor_0_r.
        replace (tsize B c1 + fidx B f - tsize B c1) with (fidx B f) by lia.
        replace (S d - S c1) with (S (d - S c1)) by lia.
        destruct IH' as [IH1 IH2]. rewrite topo_of_low by assumption. split; [now f_equal|].
        rewrite bit_S. lia.
      * unfold B in Ec at 1. rewrite tdim_topo_of in Ec. injection Ec as Ec. subst c1.
        replace (tdim B) with d by (symmetry; apply tdim_topo_of). rewrite Nat.ltb_irrefl.
        destruct (Nat.ltb_spec (S d) (S d)); [lia|]. rewrite Nat.sub_diag. auto using bit_pos.
    + subst d. assert (c1 = 0) by lia. subst c1.
      assert (Hi : fidx (Pyr Pt) f < 2).
      { pose proof (fidx_lt (Pyr Pt) f Hf) as L. rewrite Ec in L. exact L. }
      assert (H : ftype (Pyr Pt) f = Pt).
      { destruct f; simpl in *; try contradiction; auto; destruct f; simpl in *; try contradiction; auto; discriminate. }
      rewrite H. set (j := fidx (Pyr Pt) f) in *. clearbody j.
      split; [reflexivity|].
      pose proof (baseId_lt id 0) as Hb.
      destruct j as [|[|j]]; [| |lia]; exact Hb.
Qed.

(** ** Memory *)

(** [Wrote m m' b l]: m' is m with the slots b .. b+length l-1 overwritten by l *)
Definition Wrote (m m' : Mem) (b : nat) (l : list nat) : Prop :=
  length m' = length m /\
  forall p, nth_error m' p
            = if (b <=? p) && (p <? b + length l) then Some (nth_error l (p - b))
              else nth_error m p.

Ltac dec := repeat match goal with
  | |- context [?a <=? ?b] => destruct (Nat.leb_spec a b)
  | |- context [?a <? ?b] => destruct (Nat.ltb_spec a b)
  | |- context [?a =? ?b] => destruct (Nat.eqb_spec a b)
  end; cbn [andb orb].

Lemma Wrote_nil m b : Wrote m m b [].
Proof. split; [reflexivity|]. intros p. simpl. dec; try reflexivity; lia. Qed.

Lemma wr_spec m : forall a v, a < length m ->
  exists m', wr m a v = Some m' /\ Wrote m m' a [v].
Proof.
  induction m as [|x m IH]; intros a v Ha; simpl in Ha; [lia|].
  destruct a.
  - exists (Some v :: m). split; [reflexivity|]. split; [reflexivity|].
    intros p. cbn [length]. dec; try lia.
    + replace p with 0 by lia. reflexivity.
    + destruct p; [lia|]. reflexivity.
  - destruct (IH a v ltac:(lia)) as (m' & E & L & W). exists (x :: m'). simpl. rewrite E.
    split; [reflexivity|]. split; [simpl; lia|].
    intros p. destruct p; simpl nth_error.
    + dec; try lia; reflexivity.
    + rewrite W. cbn [length]. replace (S p - S a) with (p - a) by lia. dec; try lia; reflexivity.
Qed.

Lemma Wrote_app m m1 m2 b l1 l2 :
  Wrote m m1 b l1 -> Wrote m1 m2 (b + length l1) l2 -> Wrote m m2 b (l1 ++ l2).
Proof.
  intros [L1 W1] [L2 W2]. split; [congruence|]. intros p. rewrite W2, W1, app_length.
  dec; try lia; try reflexivity.
  - f_equal. rewrite nth_error_app2 by lia. f_equal. lia.
  - f_equal. rewrite nth_error_app1 by lia. reflexivity.
Qed.

Lemma Wrote_over m m1 m2 b l1 l2 :
  Wrote m m1 b l1 -> Wrote m1 m2 b l2 -> length l1 = length l2 -> Wrote m m2 b l2.
Proof.
  intros [L1 W1] [L2 W2] E. split; [congruence|]. intros p. rewrite W2, W1, E. dec; reflexivity.
Qed.

Lemma Wrote_update m m1 m2 b l1 x l2 v :
  Wrote m m1 b (l1 ++ x :: l2) -> Wrote m1 m2 (b + length l1) [v] ->
  Wrote m m2 b (l1 ++ v :: l2).
Proof.
  intros [L1 W1] [L2 W2]. split; [congruence|]. intros p. rewrite W2, W1, !app_length.
  cbn [length]. dec; try lia; try reflexivity.
  - replace (p - (b + length l1)) with 0 by lia. f_equal.
    rewrite nth_error_app2 by lia. replace (p - b - length l1) with 0 by lia. reflexivity.
  - f_equal. rewrite !nth_error_app2 by lia.
    destruct (p - b - length l1) eqn:E; [lia|]. reflexivity.
  - f_equal. rewrite !nth_error_app1 by lia. reflexivity.
Qed.

Lemma Wrote_read m m1 b l1 x l2 :
  Wrote m m1 b (l1 ++ x :: l2) -> rd m1 (b + length l1) = Some x.
Proof.
  intros [_ W]. unfold rd. rewrite W, app_length. cbn [length]. dec; try lia.
  replace (b + length l1 - b) with (length l1) by lia.
  rewrite nth_error_app2, Nat.sub_diag by lia. reflexivity.
Qed.

Lemma Wrote_fits m m1 b l : Wrote m m1 b l -> l <> [] -> b + length l <= length m.
Proof.
  intros [L W] N. destruct (Nat.le_gt_cases (b + length l) (length m)) as [|G]; [assumption|].
  exfalso. assert (0 < length l) by (destruct l; [congruence|simpl; lia]).
  specialize (W (b + length l - 1)).
  revert W. dec; try lia. intros W.
  assert (length m1 <= b + length l - 1) by lia.
  apply nth_error_None in H2. rewrite H2 in W. discriminate.
Qed.

Lemma fill_loop m b : forall n from mem1 l,
  from = b + length l -> b + length l + n <= length m ->
  Wrote m mem1 b l ->
  exists m2, loop n from (fun p mem => wr mem p (p - b)) mem1 = Some m2
             /\ Wrote m m2 b (l ++ seq (length l) n).
Proof.
  induction n as [|n IH]; intros from mem1 l -> Hn W.
  - exists mem1. cbn [loop seq]. rewrite app_nil_r. auto.
  - cbn [loop]. destruct (wr_spec mem1 (b + length l) (b + length l - b)) as (m1 & E & W1).
    { destruct W as [L _]. lia. }
    rewrite E. cbn [obind].
    replace (b + length l - b) with (length l) in W1 by lia.
    pose proof (Wrote_app _ _ _ _ _ _ W W1) as W2.
    destruct (IH (S (b + length l)) m1 (l ++ [length l])) as (m2 & E2 & W3).
    + rewrite app_length. simpl. lia.
    + rewrite app_length. simpl. lia.
    + assumption.
    + exists m2. rewrite E2. split; [reflexivity|]. rewrite app_length in W3. simpl in W3.
      rewrite Nat.add_1_r, <- app_assoc in W3. exact W3.
Qed.

Lemma add_at_spec m m1 b l1 x l2 v :
  Wrote m m1 b (l1 ++ x :: l2) ->
  exists m2, add_at (b + length l1) v m1 = Some m2 /\ Wrote m m2 b (l1 ++ (x + v) :: l2).
Proof.
  intros W. unfold add_at. rewrite (Wrote_read _ _ _ _ _ _ W). cbn [obind].
  destruct (wr_spec m1 (b + length l1) (x + v)) as (m2 & E & W2).
  - pose proof (Wrote_fits _ _ _ _ W) as F. rewrite app_length in F. simpl in F.
    destruct W as [L _]. rewrite L. enough (b + (length l1 + S (length l2)) <= length m) by lia.
    apply F. destruct l1; discriminate.
  - exists m2. split; [assumption|]. eapply Wrote_update; eauto.
Qed.

Lemma add_loop m b v : forall l2 l1 m1 from,
  from = b + length l1 -> Wrote m m1 b (l1 ++ l2) ->
  exists m2, loop (length l2) from (fun p => add_at p v) m1 = Some m2
             /\ Wrote m m2 b (l1 ++ map (fun x => x + v) l2).
Proof.
  induction l2 as [|x l2 IH]; intros l1 m1 from -> W.
  - exists m1. auto.
  - cbn [length loop]. destruct (add_at_spec m m1 b l1 x l2 v W) as (m2 & E & W2).
    rewrite E. cbn [obind].
    destruct (IH (l1 ++ [x + v]) m2 (S (b + length l1))) as (m3 & E3 & W3).
    + rewrite app_length. simpl. lia.
    + rewrite <- app_assoc. exact W2.
    + exists m3. rewrite E3. split; [reflexivity|]. rewrite <- app_assoc in W3. exact W3.
Qed.

Lemma add_range_loop m m1 b e l v :
  e = b + length l -> Wrote m m1 b l ->
  exists m2, range_loop b e (fun p => add_at p v) m1 = Some m2
             /\ Wrote m m2 b (map (fun x => x + v) l).
Proof.
  intros -> W. unfold range_loop. dec; [lia|].
  replace (b + length l - b) with (length l) by lia.
  apply (add_loop m b v l []); [simpl; lia|assumption].
Qed.

Lemma prism_loop m b nb mb ms : forall l2 l1 m1 j,
  j = length l1 -> ms = length l1 + length l2 -> b + 2 * ms <= length m ->
  Wrote m m1 b (map (fun x => x + nb) l1 ++ l2 ++ map (fun x => x + nb + mb) l1) ->
  exists m2,
    loop (length l2) j (fun j mem =>
       obind (add_at (b + j) nb mem) (fun mem =>
       obind (rd mem (b + j)) (fun x =>
       wr mem (b + j + ms) (x + mb)))) m1 = Some m2
    /\ Wrote m m2 b (map (fun x => x + nb) (l1 ++ l2) ++ map (fun x => x + nb + mb) (l1 ++ l2)).
Proof.
  induction l2 as [|x l2 IH]; intros l1 m1 j -> Hms Hlen W.
  - exists m1. cbn [length loop]. rewrite !app_nil_r. auto.
  - cbn [length loop].
    assert (Hl : length l1 = length (map (fun x => x + nb) l1)) by now rewrite map_length.
    destruct (add_at_spec m m1 b (map (fun x => x + nb) l1) x
               (l2 ++ map (fun x => x + nb + mb) l1) nb W) as (m2 & E & W2).
    rewrite <- Hl in E. rewrite E. cbn [obind].
    pose proof (Wrote_read _ _ _ _ _ _ W2) as R. rewrite <- Hl in R. rewrite R. cbn [obind].
    simpl in Hms.
    destruct (wr_spec m2 (b + length l1 + ms) (x + nb + mb)) as (m3 & E3 & W3).
    { destruct W2 as [L _]. rewrite L. lia. }
    rewrite E3. cbn [obind].
    set (cur := map (fun x => x + nb) l1 ++ (x + nb) :: l2 ++ map (fun x => x + nb + mb) l1) in *.
    assert (Lc : length cur = ms + length l1).
    { unfold cur. rewrite app_length. cbn [length]. rewrite app_length, !map_length. lia. }
    replace (b + length l1 + ms) with (b + length cur) in W3 by lia.
    pose proof (Wrote_app _ _ _ _ _ _ W2 W3) as W4.
    destruct (IH (l1 ++ [x]) m3 (S (length l1))) as (m4 & E4 & W5).
    + rewrite app_length. simpl. lia.
    + rewrite app_length. simpl. lia.
    + assumption.
    + rewrite !map_app. cbn [map]. unfold cur in W4. rewrite <- !app_assoc in *. cbn [app] in *.
      rewrite <- ?app_assoc in *. exact W4.
    + exists m4. rewrite E4. split; [reflexivity|]. rewrite <- app_assoc in W5. exact W5.
Qed.

(** ** subTopologyNumbering *)

Lemma wr_value m a v : a < length m -> exists m', wr m a v = Some m' /\ Wrote m m' a [v].
Proof. apply wr_spec. Qed.

Lemma faces_tail T c : tdim T < c -> faces T c = [].
Proof. intros H. apply length_zero_iff_nil. now apply (tsize_big T). Qed.

Lemma map_add_comm k l : map (fun x => x + k) l = map (fun x => k + x) l.
Proof. apply map_ext. intros. lia. Qed.

Lemma map_add2_comm j k l : map (fun x => x + j + k) l = map (fun x => j + k + x) l.
Proof. apply map_ext. intros. lia. Qed.

Lemma subTopologyNumbering_spec dim : forall id f sc b e m,
  (id < bit dim)%N -> is_face (topo_of id dim) f ->
  fcod (topo_of id dim) f + sc <= dim ->
  e = b + tsize (ftype (topo_of id dim) f) sc -> e <= length m ->
  exists m', subTopologyNumbering id dim (fcod (topo_of id dim) f) (fidx (topo_of id dim) f) sc b e m
             = Some m'
             /\ Wrote m m' b (subnums (topo_of id dim) f sc).
Proof.
  induction dim as [|d IH]; intros id f sc b e m Hid Hf Hsc He Hm.
  - destruct f; simpl in *; try contradiction. replace sc with 0 in * by lia.
    change (tsize Pt 0) with 1 in He. subst e.
    unfold range_loop. dec; [lia|]. replace (b + 1 - b) with 1 by lia. cbn [loop].
    destruct (wr_spec m b (b - b)) as (m' & E & W); [lia|]. rewrite E. cbn [obind].
    rewrite Nat.sub_diag in W. exists m'. auto.
  - set (T := topo_of id (S d)) in *.
    destruct (fcod T f) as [|c1] eqn:Ec.
    { (* codim 0 *)
      apply fcod_0_whole in Ec; [|assumption]. subst f.
      destruct (whole_face T) as (_ & _ & Ew). rewrite Ew in He.
      cbn [subTopologyNumbering]. unfold range_loop. dec; [lia|].
      destruct (fill_loop m b (e - b) b m []) as (m' & E & W); [simpl; lia|simpl; lia|apply Wrote_nil|].
      exists m'. split; [assumption|]. simpl in W.
      assert (Q : subnums T (whole T) sc = seq 0 (e - b)).
      { apply nth_ext with (d := 0) (d' := 0).
        - rewrite subnums_length, Ew, seq_length. lia.
        - intros n Hn. rewrite subnums_length in Hn.
          destruct (subnums_nth T (whole T) sc n (Hf) Hn) as (g & G1 & G2 & G3 & G4 & G5).
          rewrite Ew in *. rewrite emb_whole in G5 by assumption. rewrite G4 in G5.
          rewrite seq_nth by lia. apply nth_error_nth with (d := 0) in G5. rewrite G5. lia. }
      rewrite Q. exact W. }
    destruct sc as [|sc1].
    { (* subcodim 0 *)
      cbn [subTopologyNumbering]. rewrite subnums_0 by assumption.
      rewrite tsize_0 in He. apply wr_spec. lia. }
    (* recursive case *)
    cbn [subTopologyNumbering].
    rewrite (size_base id d c1) by lia.
    replace (S c1 + S sc1 - 1) with (S c1 + sc1) by lia.
    rewrite (size_base id d (S c1 + sc1)) by lia.
    assert (NB : (if S c1 + S sc1 <? S d then size (baseTopologyId id (S d) 1) d (S c1 + S sc1) else 0)
                 = tsize (topo_of id d) (S c1 + S sc1)).
    { dec; [now rewrite size_base by lia|]. symmetry. apply tsize_big. rewrite tdim_topo_of. lia. }
    rewrite NB.
    specialize (IH (baseTopologyId id (S d) 1)). rewrite topo_of_base in IH.
    pose proof (fun f0 => subTopologyId_spec d (baseTopologyId id (S d) 1) f0 (baseId_lt id d)) as SUB.
    rewrite topo_of_base in SUB. cbv zeta in SUB.
    rewrite (size_base id d (S c1)) by lia.
    set (B := topo_of id d) in *. set (bid := baseTopologyId id (S d) 1) in *.
    pose proof (baseId_lt id d) as Hbid. fold bid in Hbid.
    assert (DB : tdim B = d) by apply tdim_topo_of.
    destruct (topo_cases id d) as [[Ep Et]|[[Ep Et]|(Ep & Et & Ed)]]; fold B in Et;
      fold T in Et; rewrite Et in *; rewrite Ep; clear NB.
    + (* prism *)
      destruct f; cbn [is_face] in Hf; try contradiction; cbn [fcod] in Ec; cbn [fidx];
        cbn [ftype] in He;
        pose proof (fidx_lt B f Hf) as L; pose proof (tdim_ftype B f Hf) as DT; rewrite DB in DT.
      * (* side *)
        rewrite Ec in *. dec; try lia.
        -- (* codim + subcodim < dim *)
           destruct (SUB f Hf) as [SU SL]. rewrite Ec in SU, SL.
           set (sid := subTopologyId bid d (S c1) (fidx B f)) in *.
           replace (S d - S c1 - 1) with (d - S c1) by lia.
           rewrite (size_tsize (d - S c1) sid (S sc1)), SU by lia.
           replace (S sc1 - 1) with sc1 by lia.
           rewrite (size_tsize (d - S c1) sid sc1), SU by lia.
           rewrite tsize_PriS in He.
           set (F := ftype B f) in *.
           destruct (IH f (S sc1) b (b + tsize F (S sc1)) m Hbid Hf) as (m1 & E1 & W1);
             [rewrite Ec; lia|reflexivity|lia|].
           rewrite Ec in E1. rewrite E1. cbn [obind].
           assert (Lm1 : length m1 = length m) by apply W1.
           destruct (IH f sc1 (b + tsize F (S sc1)) (b + tsize F (S sc1) + tsize F sc1) m1 Hbid Hf)
             as (m2 & E2 & W2); [rewrite Ec; lia|reflexivity|lia|].
           rewrite Ec in E2. rewrite E2. cbn [obind].
           assert (Ls : length (subnums B f sc1) = tsize F sc1) by apply subnums_length.
           destruct (prism_loop m1 (b + tsize F (S sc1)) (tsize B (S c1 + S sc1))
                       (tsize B (S c1 + sc1)) (tsize F sc1) (subnums B f sc1) [] m2 0)
             as (m3 & E3 & W3); [reflexivity|simpl; lia|lia| |].
           { simpl. rewrite app_nil_r. exact W2. }
           rewrite Ls in E3. rewrite E3. exists m3. split; [reflexivity|].
           rewrite subnums_SideS by assumption.
           assert (W1' : Wrote m m1 b (subnums B f (S sc1))) by exact W1.
           assert (Ls1 : length (subnums B f (S sc1)) = tsize F (S sc1)) by apply subnums_length.
           rewrite <- Ls1 in W3. pose proof (Wrote_app _ _ _ _ _ _ W1' W3) as W. simpl in W.
           rewrite Ec. replace (S (S c1 + sc1)) with (S c1 + S sc1) by lia.
           rewrite map_add_comm, map_add2_comm in W. exact W.
        -- (* codim + subcodim = dim *)
           destruct (SUB f Hf) as [SU SL]. rewrite Ec in SU, SL.
           set (sid := subTopologyId bid d (S c1) (fidx B f)) in *.
           replace (S d - S c1 - 1) with (d - S c1) by lia.
           replace (S sc1 - 1) with sc1 by lia.
           cbn [obind].
           rewrite (size_tsize (d - S c1) sid sc1), SU by lia.
           rewrite tsize_PriS in He.
           set (F := ftype B f) in *.
           rewrite (tsize_big F (S sc1)) in He by lia.
           destruct (IH f sc1 b (b + tsize F sc1) m Hbid Hf)
             as (m2 & E2 & W2); [rewrite Ec; lia|reflexivity|lia|].
           rewrite Ec in E2. rewrite E2. cbn [obind].
           assert (Ls : length (subnums B f sc1) = tsize F sc1) by apply subnums_length.
           destruct (prism_loop m b (tsize B (S c1 + S sc1))
                       (tsize B (S c1 + sc1)) (tsize F sc1) (subnums B f sc1) [] m2 0)
             as (m3 & E3 & W3); [reflexivity|simpl; lia|lia| |].
           { simpl. rewrite app_nil_r. exact W2. }
           rewrite Ls in E3. rewrite E3. exists m3. split; [reflexivity|].
           rewrite subnums_SideS by assumption.
           assert (Z : subnums B f (S sc1) = []).
           { apply length_zero_iff_nil. rewrite subnums_length. apply tsize_big. fold F. lia. }
           rewrite Z. simpl in W3 |- *.
           rewrite Ec. replace (S (S c1 + sc1)) with (S c1 + S sc1) by lia.
           rewrite map_add_comm, map_add2_comm in W3. exact W3.
      * (* bottom *)
        injection Ec as Ec. rewrite Ec in *.
        dec; try lia.
        rewrite Nat.mul_0_l, Nat.add_0_r, Nat.mul_0_l, Nat.add_0_r.
        replace (tsize B (S c1) + fidx B f - tsize B (S c1)) with (fidx B f) by lia.
        destruct (IH f (S sc1) b e m Hbid Hf) as (m1 & E1 & W1); [rewrite Ec; lia|assumption|assumption|].
        rewrite Ec in E1. rewrite E1. cbn [obind].
        destruct (add_range_loop m m1 b e (subnums B f (S sc1)) (tsize B (S c1 + S sc1)))
          as (m2 & E2 & W2); [now rewrite subnums_length|assumption|].
        rewrite E2. exists m2. split; [reflexivity|].
        rewrite subnums_Bot, Ec by assumption. rewrite map_add_comm in W2.
        replace (S (c1 + S sc1)) with (S c1 + S sc1) by lia. exact W2.
      * (* top *)
        injection Ec as Ec. rewrite Ec in *.
        dec; try lia.
        rewrite !Nat.mul_1_l.
        replace (tsize B (S c1) + tsize B c1 + fidx B f - (tsize B (S c1) + tsize B c1)) with (fidx B f) by lia.
        destruct (IH f (S sc1) b e m Hbid Hf) as (m1 & E1 & W1); [rewrite Ec; lia|assumption|assumption|].
        rewrite Ec in E1. rewrite E1. cbn [obind].
        destruct (add_range_loop m m1 b e (subnums B f (S sc1))
                    (tsize B (S c1 + S sc1) + tsize B (S c1 + sc1)))
          as (m2 & E2 & W2); [now rewrite subnums_length|assumption|].
        rewrite E2. exists m2. split; [reflexivity|].
        rewrite subnums_Top, Ec by assumption. rewrite map_add_comm in W2.
        replace (S (c1 + S sc1)) with (S c1 + S sc1) by lia.
        replace (c1 + S sc1) with (S c1 + sc1) by lia. exact W2.
    + (* pyramid *)
      destruct f; cbn [is_face] in Hf; try contradiction; cbn [fcod] in Ec; cbn [fidx];
        cbn [ftype] in He.
      * (* base *)
        pose proof (fidx_lt B f Hf) as L.
        injection Ec as Ec. rewrite Ec in *. dec; try lia.
        destruct (IH f (S sc1) b e m Hbid Hf) as (m1 & E1 & W1); [rewrite Ec; lia|assumption|assumption|].
        rewrite Ec in E1. exists m1. rewrite subnums_Base. auto.
      * (* cone *)
        pose proof (fidx_lt B f Hf) as L. pose proof (tdim_ftype B f Hf) as DT; rewrite DB in DT.
        rewrite Ec in *.
        replace (tsize B c1 + fidx B f - tsize B c1) with (fidx B f) by lia.
        destruct (Nat.ltb_spec (tsize B c1 + fidx B f) (tsize B c1)); [lia|].
        destruct (SUB f Hf) as [SU SL]. rewrite Ec in SU, SL.
        set (sid := subTopologyId bid d (S c1) (fidx B f)) in *.
        replace (S d - S c1 - 1) with (d - S c1) by lia.
        replace (S sc1 - 1) with sc1 by lia.
        rewrite (size_tsize (d - S c1) sid sc1), SU by lia.
        rewrite tsize_PyrS in He.
        set (F := ftype B f) in *.
        destruct (IH f sc1 b (b + tsize F sc1) m Hbid Hf)
          as (m1 & E1 & W1); [rewrite Ec; lia|reflexivity|lia|].
        rewrite Ec in E1. rewrite E1. cbn [obind].
        assert (Lm1 : length m1 = length m) by apply W1.
        assert (Ls : length (subnums B f sc1) = tsize F sc1) by apply subnums_length.
        rewrite subnums_ConeS by assumption. fold F. rewrite DT, Ec.
        destruct (Nat.ltb_spec (S c1 + S sc1) (S d)).
        -- destruct (Nat.eqb_spec (S sc1) (S (tdim F))) as [Q|Q]; [lia|].
           rewrite Nat.add_0_r in He.
           destruct (IH f (S sc1) (b + tsize F sc1) e m1 Hbid Hf)
             as (m2 & E2 & W2); [rewrite Ec; lia|fold F; lia|lia|].
           rewrite Ec in E2. rewrite E2. cbn [obind].
           destruct (add_range_loop m1 m2 (b + tsize F sc1) e (subnums B f (S sc1)) (tsize B (S c1 + sc1)))
             as (m3 & E3 & W3); [rewrite subnums_length; fold F; lia|assumption|].
           rewrite E3. exists m3. split; [reflexivity|].
           destruct (Nat.eqb_spec (S sc1) (S (d - S c1))) as [Q'|Q']; [lia|].
           rewrite app_nil_r. rewrite map_add_comm in W3. rewrite <- Ls in W3.
           exact (Wrote_app _ _ _ _ _ _ W1 W3).
        -- assert (Q : sc1 = d - S c1) by lia.
           rewrite (tsize_big F (S sc1)) in He by lia.
           destruct (Nat.eqb_spec (S sc1) (S (tdim F))) as [_|Q']; [|lia].
           destruct (Nat.eqb_spec (S sc1) (S (d - S c1))) as [_|Q']; [|lia].
           assert (Z : subnums B f (S sc1) = []).
           { apply length_zero_iff_nil. rewrite subnums_length. apply tsize_big. fold F. lia. }
           rewrite Z. cbn [map app].
           destruct (wr_spec m1 (b + tsize F sc1) (tsize B (S c1 + sc1))) as (m2 & E2 & W2); [lia|].
           rewrite E2. exists m2. split; [reflexivity|].
           replace (tdim B) with (S c1 + sc1) by lia.
           rewrite <- Ls in W2. exact (Wrote_app _ _ _ _ _ _ W1 W2).
      * (* apex: has codimension dim, so subcodim would be 0 *)
        lia.
    + lia.
Qed.
