(** Facts about the test program of the reference elements (M_RefElemTest). *)
From Coq Require Import NArith PeanoNat Bool List Lia Sorted.
From Verif Require Import M_Type M_TypeIndex M_RefTopo P_Type P_Type2 S_Topo P_Topo P_RefTopo P_RefTopo2 P_RefTopo3 M_Container M_RefElemTest T_RefTopo.
Import ListNotations.

Lemma osum_0 l : osum l = Some 0 <-> Forall (fun o => o = Some 0) l.
Proof.
  induction l as [|o r IH]; cbn [osum]; [split; [constructor|reflexivity]|]. split.
  - intros H. destruct o as [a|]; cbn [obind] in H; [|discriminate]. destruct (osum r) as [b|]; cbn [obind] in H; [|discriminate].
    injection H as H. assert (a = 0 /\ b = 0) as [-> ->] by lia. constructor; [reflexivity|]. now apply IH.
  - intros H. inversion H as [|? ? Ho Hr]; subst. cbn [obind]. apply IH in Hr. now rewrite Hr.
Qed.

Lemma osum_map0 {A} (f : A -> option nat) l : osum (map f l) = Some 0 <-> forall a, In a l -> f a = Some 0.
Proof. rewrite osum_0, Forall_forall. split; intros H; [intros a Ha; apply H, in_map, Ha|]. intros o Ho. apply in_map_iff in Ho. destruct Ho as (a & <- & Ha). auto. Qed.

Lemma osum_app a b : osum (a ++ b) = Some 0 <-> osum a = Some 0 /\ osum b = Some 0.
Proof. rewrite !osum_0, Forall_app. reflexivity. Qed.

Lemma tst0 b : tst b = 0 <-> b = true.
Proof. destruct b; cbn; split; congruence. Qed.

Lemma fill_flags_None nums : forall f k, In k nums -> length f <= k -> fill_flags f nums = None.
Proof.
  assert (S1 : forall f k, length f <= k -> set_flag f k = None).
  { induction f as [|x f IH]; intros k H; [reflexivity|]. destruct k as [|k]; cbn [length] in H; [lia|]. cbn [set_flag]. rewrite IH by lia. reflexivity. }
  assert (S2 : forall f k f', set_flag f k = Some f' -> length f' = length f).
  { induction f as [|x f IH]; intros k f' H; [discriminate|]. destruct k as [|k]; cbn [set_flag] in H; [injection H as <-; reflexivity|].
    destruct (set_flag f k) eqn:E; [|discriminate]. injection H as <-. cbn [length]. f_equal. eauto. }
  induction nums as [|n nums IH]; intros f k Hk L; [destruct Hk|]. cbn [fill_flags]. destruct Hk as [->|Hk].
  - now rewrite S1.
  - destruct (set_flag f n) as [f'|] eqn:E; [|reflexivity]. cbn [obind]. apply IH with k; [assumption|]. apply S2 in E. lia.
Qed.

(** What one pass of the loops accepts. *)
Definition range_ok (r : RefElement) (codim i c : nat) : Prop :=
  exists l, re_subEntities r i codim c = Some l /\ re_size3 r i codim c = Some (length l)
    /\ (c < codim -> length l = 0) /\ (c = codim -> length l = 1) /\ (codim < c -> 2 <= length l)
    /\ (forall j v, nth_error l j = Some v -> re_subEntity r i codim j c = Some v)
    /\ (forall k, In k l -> k < re_size r c)
    /\ (forall k, k < re_size r c -> exists b, re_contains r i codim c k = Some b /\ (b = true <-> In k l)).

Lemma existsb_eqb k l : existsb (Nat.eqb k) l = true <-> In k l.
Proof. rewrite existsb_exists. split; [intros (x & H & E); apply Nat.eqb_eq in E; now subst|]. intros H. exists k. split; [assumption|apply Nat.eqb_refl]. Qed.

Lemma checkRange_iff r codim i c : checkRange r codim i c = Some 0 <-> range_ok r codim i c.
Proof.
  unfold checkRange, range_ok. destruct (re_subEntities r i codim c) as [l|]; cbn [obind]; [|split; [discriminate|intros (l & H & _); discriminate]].
  destruct (re_size3 r i codim c) as [s|]; cbn [obind]; [|split; [discriminate|intros (l0 & _ & H & _); discriminate]].
  assert (F : forall f', fill_flags (repeat false (re_size r c)) l = Some f' ->
     (forall k, In k l -> k < re_size r c) /\ forall k, k < re_size r c -> nth_error f' k = Some (existsb (Nat.eqb k) l)).
  { intros f' E. assert (B : forall k, In k l -> k < re_size r c).
    { intros k Hk. destruct (Nat.lt_ge_cases k (re_size r c)); [assumption|]. rewrite (fill_flags_None l _ k) in E; [discriminate|assumption|]. now rewrite repeat_length. }
    split; [assumption|]. intros k Hk. destruct (fill_flags_spec l (repeat false (re_size r c))) as (f2 & E2 & L2 & N2); [intros; rewrite repeat_length; auto|].
    rewrite E in E2. injection E2 as <-. rewrite N2. destruct (existsb (Nat.eqb k) l); [reflexivity|]. rewrite (nth_error_nth' _ false) by (rewrite repeat_length; assumption). now rewrite nth_repeat. }
  split.
  - match goal with |- obind (osum ?x) _ = _ -> _ => destruct (osum x) as [e5|] eqn:E5 end; cbn [obind]; [|discriminate].
    match goal with |- obind (osum ?x) _ = _ -> _ => destruct (osum x) as [e6|] eqn:E6 end; cbn [obind]; [|discriminate].
    destruct (fill_flags (repeat false (re_size r c)) l) as [f'|]; cbn [obind]; [|discriminate]. destruct (F f' eq_refl) as [F1 F2].
    match goal with |- obind (osum ?x) _ = _ -> _ => destruct (osum x) as [e7|] eqn:E7 end; cbn [obind]; [|discriminate].
    intros H. injection H as H. assert (tst (s =? length l) = 0 /\ e5 = 0 /\ e6 = 0 /\ e7 = 0) as (Q1 & -> & -> & ->) by lia.
    apply tst0, Nat.eqb_eq in Q1. subst s. exists l. split; [reflexivity|]. split; [reflexivity|].
    split; [|split; [|split; [|split; [|split]]]].
    + intros L. apply Nat.ltb_lt in L. rewrite L in H. destruct (length l =? 0) eqn:Q; [now apply Nat.eqb_eq|cbn [tst] in H; lia].
    + intros ->. rewrite !Nat.eqb_refl in H. destruct (length l =? 1) eqn:Q; [now apply Nat.eqb_eq|cbn [tst] in H; lia].
    + intros L. apply Nat.ltb_lt in L. rewrite L in H. destruct (1 <? length l) eqn:Q; [now apply Nat.ltb_lt in Q|cbn [tst] in H; lia].
    + intros j v Hj. apply osum_map0 with (a := j) in E5.
      2: { apply in_seq. pose proof (proj1 (nth_error_Some l j) ltac:(rewrite Hj; discriminate)). lia. }
      rewrite Hj in E5. cbn [obind] in E5. destruct (re_subEntity r i codim j c) as [w|]; [|discriminate]. cbn [obind] in E5. injection E5 as E5. apply tst0, Nat.eqb_eq in E5. now subst.
    + exact F1.
    + intros k Hk. apply osum_map0 with (a := k) in E7; [|apply in_seq; lia]. rewrite F2 in E7 by assumption. cbn [obind] in E7.
      destruct (re_contains r i codim c k) as [b|]; [|discriminate]. cbn [obind] in E7. injection E7 as E7. apply tst0, eqb_prop in E7. exists b. split; [reflexivity|]. subst b. apply existsb_eqb.
  - intros (l0 & Hl & Hs & H1 & H2 & H3 & H4 & H5 & H6). injection Hl as <-. injection Hs as ->.
    match goal with |- obind (osum ?x) _ = _ => replace (osum x) with (Some 0) end; cbn [obind].
    2: { symmetry. apply osum_map0. intros j Hj. apply in_seq in Hj. rewrite (nth_error_nth' l 0) by lia. cbn [obind]. rewrite (H4 j (nth j l 0)); [|apply nth_error_nth'; lia]. cbn [obind]. now rewrite Nat.eqb_refl. }
    match goal with |- obind (osum ?x) _ = _ => replace (osum x) with (Some 0) end; cbn [obind].
    2: { symmetry. apply osum_map0. intros j Hj. destruct (H6 j (H5 j Hj)) as (b & -> & B). cbn [obind]. apply B in Hj. now subst b. }
    destruct (fill_flags_spec l (repeat false (re_size r c))) as (f' & E2 & L2 & N2); [intros; rewrite repeat_length; auto|]. rewrite E2. cbn [obind]. destruct (F f' E2) as [_ F2].
    match goal with |- obind (osum ?x) _ = _ => replace (osum x) with (Some 0) end; cbn [obind].
    2: { symmetry. apply osum_map0. intros j Hj. apply in_seq in Hj. rewrite F2 by lia. cbn [obind]. destruct (H6 j) as (b & -> & B); [lia|]. cbn [obind]. replace b with (existsb (Nat.eqb j) l); [now rewrite eqb_reflx|].
         apply eq_true_iff_eq. rewrite existsb_eqb. now symmetry. }
    rewrite Nat.eqb_refl. cbn [tst]. f_equal.
    destruct (c <? codim) eqn:C1; [apply Nat.ltb_lt in C1; rewrite H1 by assumption; destruct (c =? codim) eqn:C2; [apply Nat.eqb_eq in C2; lia|]; destruct (codim <? c) eqn:C3; [apply Nat.ltb_lt in C3; lia|reflexivity]|].
    destruct (c =? codim) eqn:C2; [apply Nat.eqb_eq in C2; rewrite H2 by assumption; destruct (codim <? c) eqn:C3; [apply Nat.ltb_lt in C3; lia|reflexivity]|].
    destruct (codim <? c) eqn:C3; [|reflexivity]. apply Nat.ltb_lt in C3. specialize (H3 C3). apply Nat.ltb_lt in H3. now rewrite H3.
Qed.

Lemma checkSubEntities_iff dim r : checkSubEntities dim r = Some 0 <->
  forall codim i c, codim <= dim -> i < re_size r codim -> c <= dim -> range_ok r codim i c.
Proof.
  unfold checkSubEntities. rewrite osum_map0. split.
  - intros H codim i c H1 H2 H3. apply checkRange_iff. specialize (H codim ltac:(apply in_seq; lia)). rewrite osum_map0 in H.
    specialize (H i ltac:(apply in_seq; lia)). rewrite osum_map0 in H. apply H. apply in_seq. lia.
  - intros H codim H1. apply osum_map0. intros i H2. apply osum_map0. intros c H3. apply in_seq in H1, H2, H3. apply checkRange_iff, H; lia.
Qed.

Lemma tsize_ge2 T : forall c, 1 <= c <= tdim T -> 2 <= tsize T c.
Proof.
  induction T as [|b IH|b IH]; intros c Hc; simpl in Hc; [lia| |].
  - destruct c as [|c]; [lia|]. rewrite tsize_PriS. pose proof (tsize_pos b c ltac:(lia)). lia.
  - destruct c as [|c]; [lia|]. rewrite tsize_PyrS. pose proof (tsize_pos b c ltac:(lia)).
    destruct (Nat.eqb_spec (S c) (S (tdim b))) as [E|E]; [lia|]. pose proof (tsize_pos b (S c) ltac:(lia)). lia.
Qed.

Lemma library_range_ok id dim r codim i c : (id < 2 ^ N.of_nat dim)%N -> dim < 256 -> re_infos id dim = Some r ->
  codim <= dim -> i < re_size r codim -> c <= dim -> range_ok r codim i c.
Proof.
  intros Hid Hd Hr Hc Hi Hcc.
  destruct (C13_subEntities_increasing id dim r i codim c Hid Hr Hc Hi Hcc) as (l & E & Es & _ & B & N & L).
  destruct (C12_subentity_type_valid id dim r i codim Hid Hd Hr Hc Hi) as (t & Et & Ed & _ & Ev). specialize (L t Et).
  exists l. split; [exact E|]. split; [exact Es|]. split; [|split; [|split; [|split; [|split]]]].
  - intros H. apply Nat.ltb_lt in H. now rewrite H in L.
  - intros ->. rewrite Nat.ltb_irrefl, Nat.sub_diag in L. rewrite L, size_tsize by lia. apply tsize_0.
  - intros H. destruct (Nat.ltb_spec c codim) as [H2|_]; [lia|]. rewrite L, size_tsize by lia. apply tsize_ge2. rewrite tdim_topo_of. lia.
  - intros j v Hj. rewrite N; [assumption|]. apply nth_error_Some. now rewrite Hj.
  - exact B.
  - intros k Hk. destruct (C15_contains_iff_in_range id dim r i codim c k Hid Hr Hc Hi Hcc Hk) as (l' & b & E' & Eb & Q & _).
    rewrite E in E'. injection E' as <-. exists b. now split.
Qed.

(** ** A reference element all of whose subentity numbers are 0 *)
Definition zeroInfo (s : SubEntityInfo) : SubEntityInfo :=
  mkInfo (offset_ s) (type_ s) (map (fun _ => Some 0) (numbering_ s))
    (map (fun cc => match nth cc (containsSubentity_ s) [] with
                    | [] => []
                    | _ :: fs => negb (info_size s cc =? 0) :: map (fun _ => false) fs
                    end) (seq 0 (length (containsSubentity_ s)))).
Definition zeroNumbers (r : RefElement) : RefElement := map (map zeroInfo) r.

Lemma zero_size r c : re_size (zeroNumbers r) c = re_size r c.
Proof. unfold re_size, zeroNumbers. change [] with (map zeroInfo []) at 1. rewrite map_nth. apply map_length. Qed.

Lemma zero_info r i c : re_info (zeroNumbers r) i c = option_map zeroInfo (re_info r i c).
Proof. unfold re_info, zeroNumbers. change [] with (map zeroInfo []) at 1. rewrite map_nth. apply nth_error_map. Qed.

Lemma zero_rd m a v : rd m a = Some v -> rd (map (fun _ => Some 0) m) a = Some 0.
Proof. unfold rd. rewrite nth_error_map. destruct (nth_error m a) as [[w|]|]; [reflexivity|discriminate|discriminate]. Qed.

Lemma omap_zero m : forall l x, omap (rd m) l = Some x -> omap (rd (map (fun _ => Some 0) m)) l = Some (repeat 0 (length l)).
Proof.
  induction l as [|a l IH]; intros x H; [reflexivity|]. cbn [omap] in H |- *. destruct (rd m a) as [v|] eqn:E; [|discriminate].
  rewrite (zero_rd _ _ _ E). cbn [obind] in H |- *. destruct (omap (rd m) l) as [y|]; [|discriminate]. now rewrite (IH y eq_refl).
Qed.

Lemma omap_length {A B} (f : A -> option B) l : forall x, omap f l = Some x -> length x = length l.
Proof.
  induction l as [|a l IH]; intros x H; cbn [omap] in H; [now injection H as <-|].
  destruct (f a); [|discriminate]. cbn [obind] in H. destruct (omap f l) as [y|]; [|discriminate]. injection H as <-. cbn [length]. f_equal. now apply IH.
Qed.

Lemma range_ok_zero r codim i c : 0 < re_size r c -> range_ok r codim i c -> range_ok (zeroNumbers r) codim i c.
Proof.
  intros P (l & E & Es & H1 & H2 & H3 & H4 & H5 & H6). unfold range_ok. unfold re_subEntities, re_size3, re_subEntity, re_contains in *.
  rewrite zero_info, zero_size. destruct (re_info r i codim) as [s|]; [|discriminate]. cbn [obind option_map] in *.
  injection Es as Es. exists (repeat 0 (length l)). rewrite repeat_length.
  assert (Z : info_numbers (zeroInfo s) c = Some (repeat 0 (length l))).
  { unfold info_numbers in *. cbn [zeroInfo offset_ numbering_]. pose proof (omap_length _ _ _ E) as L. rewrite L. now apply omap_zero with l. }
  split; [exact Z|]. split; [unfold info_size in *; cbn [zeroInfo offset_]; now rewrite Es|].
  split; [exact H1|]. split; [exact H2|]. split; [exact H3|]. split; [|split].
  - intros j v Hj. assert (J : j < length l) by (rewrite <- (repeat_length 0 (length l)); apply nth_error_Some; now rewrite Hj).
    rewrite (nth_error_nth' _ 0), nth_repeat in Hj by (now rewrite repeat_length). injection Hj as <-.
    specialize (H4 j (nth j l 0) (nth_error_nth' l 0 J)). unfold info_number in *. cbn [zeroInfo offset_ numbering_]. now apply zero_rd with (nth j l 0).
  - intros k Hk. apply repeat_spec in Hk. now subst.
  - intros k Hk. destruct (H6 k Hk) as (b & Eb & _). unfold info_contains in *. cbn [zeroInfo containsSubentity_].
    assert (C : c < length (containsSubentity_ s)).
    { destruct (Nat.lt_ge_cases c (length (containsSubentity_ s))) as [C|C]; [assumption|]. rewrite nth_overflow in Eb by assumption. destruct k; discriminate. }
    rewrite (nth_indep _ [] (match nth 0 (containsSubentity_ s) [] with [] => [] | _ :: fs => negb (info_size s 0 =? 0) :: map (fun _ => false) fs end)) by (rewrite map_length, seq_length; assumption).
    rewrite (map_nth (fun cc => match nth cc (containsSubentity_ s) [] with [] => [] | _ :: fs => negb (info_size s cc =? 0) :: map (fun _ => false) fs end) (seq 0 (length (containsSubentity_ s))) 0 c).
    rewrite seq_nth by assumption. cbn [Nat.add]. destruct (nth c (containsSubentity_ s) []) as [|f0 fs]; [destruct k; discriminate|].
    rewrite Es. destruct k as [|k].
    + cbn [nth_error]. eexists. split; [reflexivity|]. destruct (length l); cbn; [split; [discriminate|intros []]|]. split; [now left|reflexivity].
    + cbn [nth_error] in Eb |- *. rewrite nth_error_map, Eb. exists false. split; [reflexivity|]. split; [discriminate|]. intros Q. apply repeat_spec in Q. discriminate.
Qed.
