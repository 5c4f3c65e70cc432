(** C45: reduceOrder and GeneralVertexOrder. *)
From Coq Require Import NArith ZArith PeanoNat Bool List Permutation Sorted Lia.
From Verif Require Import M_Type M_RefTopo S_Topo P_Type P_Topo P_RefTopo P_RefTopo2 T_RefTopo M_VertexOrder S_VertexOrder P_VertexOrder.
Import ListNotations.

Section Ids.
Variables (A : Type) (ltb : A -> A -> bool).
Hypothesis T : strictTotal ltb.

(** the loop ends; it needs as much room as there are ids and leaves the rest alone *)
Theorem C45_defined : forall fuel (l : list A) out, length l <= fuel -> length l <= length out ->
  exists res, reduceList ltb fuel l out = Some res /\ length res = length out /\ skipn (length l) res = skipn (length l) out.
Proof.
  intros fuel l out F O. eexists. split; [apply list_ok; assumption|]. split.
  - rewrite app_length, map_length, skipn_length. lia.
  - rewrite skipn_app, map_length, Nat.sub_diag. rewrite skipn_all2 by (rewrite map_length; lia). reflexivity.
Qed.
Theorem C45_overflow : forall fuel (l : list A) out, length l <= fuel -> length out < length l -> reduceList ltb fuel l out = None.
Proof. intros. apply list_over; assumption. Qed.

Lemma first_ranks : forall fuel (l : list A) out res, length l <= fuel -> reduceList ltb fuel l out = Some res -> firstn (length l) res = map (rk ltb l) l.
Proof.
  intros fuel l out res F E. destruct (le_lt_dec (length l) (length out)) as [O|O].
  - rewrite list_ok in E by assumption. injection E as <-. rewrite firstn_app, map_length, Nat.sub_diag. cbn. rewrite app_nil_r.
    apply firstn_all2. rewrite map_length. lia.
  - rewrite list_over in E by assumption. discriminate.
Qed.
(** the results compare as the ids do, equal ids included *)
Theorem C45_order : forall fuel (l : list A) out res, length l <= fuel -> reduceList ltb fuel l out = Some res ->
  sameOrder ltb Nat.ltb l (firstn (length l) res).
Proof. intros fuel l out res F E. rewrite (first_ranks fuel l out res F E). apply same_ranks. assumption. Qed.
(** distinct ids give a permutation of 0..n-1 *)
Theorem C45_permutation : forall fuel (l : list A) out res, length l <= fuel -> reduceList ltb fuel l out = Some res -> NoDup l ->
  Permutation (firstn (length l) res) (seq 0 (length l)).
Proof. intros fuel l out res F E N. rewrite (first_ranks fuel l out res F E). apply rk_perm; assumption. Qed.
(** ... the only one with that order *)
Theorem C45_unique : forall fuel (l : list A) out res m, length l <= fuel -> reduceList ltb fuel l out = Some res ->
  Permutation m (seq 0 (length l)) -> sameOrder ltb Nat.ltb l m -> firstn (length l) res = m.
Proof.
  intros fuel l out res m F E P S. rewrite (first_ranks fuel l out res F E), (map_rk_same ltb Nat.ltb l m S).
  destruct S as [L _]. apply map_rk_permuted. rewrite <- L. assumption.
Qed.
Theorem C45_only_order : forall B (ltB : B -> B -> bool) fuel (l : list A) (m : list B) out, length l <= fuel -> sameOrder ltb ltB l m ->
  reduceList ltb fuel l out = reduceList ltB fuel m out.
Proof.
  intros B ltB fuel l m out F S. pose proof (proj1 S) as L. destruct (le_lt_dec (length l) (length out)) as [O|O].
  - rewrite !list_ok by lia. rewrite (map_rk_same ltb ltB l m S), L. reflexivity.
  - rewrite !list_over by lia. reflexivity.
Qed.
Theorem C45_idempotent : forall fuel (l : list A) out res, length l <= fuel -> reduceList ltb fuel l out = Some res ->
  reduceList Nat.ltb fuel (firstn (length l) res) out = Some res.
Proof.
  intros fuel l out res F E. rewrite <- E. symmetry. apply C45_only_order; [assumption|]. exact (C45_order fuel l out res F E).
Qed.
End Ids.
Print Assumptions C45_defined.
Print Assumptions C45_overflow.
Print Assumptions C45_order.
Print Assumptions C45_permutation.
Print Assumptions C45_unique.
Print Assumptions C45_only_order.
Print Assumptions C45_idempotent.

(** ** GeneralVertexOrder *)
Lemma pick_some : forall {A} (l : list A) ks, (forall k, In k ks -> k < length l) -> exists m, pick l ks = Some m /\ length m = length ks.
Proof.
  intros A l ks. induction ks as [|k ks IH]; intros H; [exists []; split; reflexivity|]. destruct IH as (m & E & L); [intros; apply H; right; assumption|].
  cbn. rewrite E. specialize (H k (or_introl eq_refl)). destruct (nth_error l k) as [a|] eqn:Ea; [|apply nth_error_None in Ea; lia].
  exists (a :: m). split; [reflexivity|]. cbn. lia.
Qed.
Lemma pick_nth : forall {A} (l : list A) ks m, pick l ks = Some m -> forall j, nth_error m j = obind (nth_error ks j) (fun k => nth_error l k).
Proof.
  intros A l ks. induction ks as [|k ks IH]; intros m E j; cbn in E; [injection E as <-; destruct j; reflexivity|].
  destruct (nth_error l k) as [a|] eqn:Ea; [|discriminate]. destruct (pick l ks) as [m'|] eqn:Em; [|discriminate]. injection E as <-.
  destruct j; cbn; [symmetry; assumption|]. apply IH. reflexivity.
Qed.
Lemma pick_len : forall {A} (l : list A) ks m, pick l ks = Some m -> length m = length ks.
Proof.
  intros A l ks. induction ks as [|k ks IH]; intros m E; cbn in E; [injection E as <-; reflexivity|].
  destruct (nth_error l k); [|discriminate]. destruct (pick l ks) as [m'|]; [|discriminate]. injection E as <-. cbn. rewrite (IH m'); reflexivity.
Qed.
Lemma pick_same : forall {A B} (ltA : A -> A -> bool) (ltB : B -> B -> bool) l m ks l' m', sameOrder ltA ltB l m -> pick l ks = Some l' -> pick m ks = Some m' ->
  sameOrder ltA ltB l' m'.
Proof.
  intros A B ltA ltB l m ks l' m' [L S] P Q. split; [rewrite (pick_len _ _ _ P), (pick_len _ _ _ Q); reflexivity|].
  intros i j a a' b b' Ha Ha' Hb Hb'. rewrite (pick_nth _ _ _ P) in Ha, Ha'. rewrite (pick_nth _ _ _ Q) in Hb, Hb'.
  destruct (nth_error ks i) as [k|]; [|discriminate]. destruct (nth_error ks j) as [k'|]; [|discriminate]. exact (S k k' a a' b b' Ha Ha' Hb Hb').
Qed.
Lemma sorted_seq : forall l s, StronglySorted lt l -> (forall k, In k l -> s <= k < s + length l) -> l = seq s (length l).
Proof.
  induction l as [|x l IH]; intros s S H; [reflexivity|]. apply StronglySorted_inv in S. destruct S as [S F]. rewrite Forall_forall in F.
  assert (E : l = seq (Datatypes.S s) (length l)).
  { apply IH; [assumption|]. intros k Hk. pose proof (F k Hk). pose proof (H k (or_intror Hk)) as H1. pose proof (H x (or_introl eq_refl)) as H2. cbn [length] in *. lia. }
  assert (x = s).
  { pose proof (H x (or_introl eq_refl)) as X. cbn [length] in X. destruct l as [|y l]; [cbn in X; lia|]. cbn [length seq] in E. injection E as E1 _.
    pose proof (F y (or_introl eq_refl)). lia. }
  subst x. cbn [length seq]. rewrite <- E. reflexivity.
Qed.

Section Order.
Variables (A : Type) (ltb : A -> A -> bool) (id : N) (dim : nat) (r : RefElement) (ids : list A) (t : GeometryType) (fuel addr : nat).
Hypothesis T : strictTotal ltb.
Hypothesis Hid : (id < 2 ^ N.of_nat dim)%N.
Hypothesis Hr : re_infos id dim = Some r.
Hypothesis Hl : length ids = re_size r dim.
Hypothesis Hf : length ids <= fuel.

(** the constructor: as many ids as the reference element has vertices *)
Theorem C45_construct : exists o, vo_make ltb fuel addr t dim r ids = Some o
  /\ vo_type o = t /\ length (vo_order o) = re_size r dim /\ sameOrder ltb Nat.ltb ids (vo_order o) /\ (NoDup ids -> Permutation (vo_order o) (seq 0 (re_size r dim))).
Proof.
  unfold vo_make. rewrite list_ok by (rewrite ?repeat_length; lia). eexists. split; [reflexivity|]. cbn [vo_type vo_order].
  rewrite skipn_all2 by (rewrite repeat_length; lia). rewrite app_nil_r. split; [reflexivity|]. split; [rewrite map_length; assumption|].
  split; [apply same_ranks; assumption|]. intros N. rewrite <- Hl. apply rk_perm; assumption.
Qed.
Theorem C45_construct_too_many : forall ids', re_size r dim < length ids' -> length ids' <= fuel -> vo_make ltb fuel addr t dim r ids' = None.
Proof. intros ids' H F. unfold vo_make. rewrite list_over by (rewrite ?repeat_length; lia). reflexivity. Qed.

Variable o : VOrder.
Hypothesis Ho : vo_make ltb fuel addr t dim r ids = Some o.

Lemma vo_fields : vo_addr o = addr /\ vo_dim o = dim /\ vo_ref o = r /\ vo_order o = map (rk ltb ids) ids.
Proof.
  pose proof Ho as E. unfold vo_make in E. rewrite list_ok in E by (rewrite ?repeat_length; lia).
  rewrite skipn_all2, app_nil_r in E by (rewrite repeat_length; lia). injection E as <-. repeat split.
Qed.

Section Sub.
Variables (c i : nat).
Hypothesis Hc : c <= dim.
Hypothesis Hi : i < re_size r c.

Lemma sub_list : exists vs, re_subEntities r i c dim = Some vs /\ re_size3 r i c dim = Some (length vs) /\ StronglySorted lt vs
  /\ (forall k, In k vs -> k < length ids) /\ (forall k, k < length vs -> re_subEntity r i c k dim = nth_error vs k).
Proof.
  destruct (C13_subEntities_increasing id dim r i c dim Hid Hr Hc Hi ltac:(lia)) as (vs & E1 & E2 & E3 & E4 & E5 & _).
  exists vs. rewrite Hl. repeat split; assumption.
Qed.

(** begin to end runs through the vertices of the subentity; dereferencing gives the rank of
    the id of that vertex *)
Theorem C45_iterate : forall vs, re_subEntities r i c dim = Some vs -> (Z.of_nat (length vs) < 2 ^ 63)%Z ->
  exists vals e, pick (vo_order o) vs = Some vals /\ vo_end o c i = Some e
    /\ (forall k, k < length vs -> vi_dereference o (vi_advance (vo_begin o c i) (Z.of_nat k)) = nth_error vals k
                                  /\ vi_elementAt o (vo_begin o c i) (Z.of_nat k) = nth_error vals k
                                  /\ vi_increment (vi_advance (vo_begin o c i) (Z.of_nat k)) = vi_advance (vo_begin o c i) (Z.of_nat (S k)))
    /\ (forall k, k <= length vs -> vi_equals (vi_advance (vo_begin o c i) (Z.of_nat k)) e = (k =? length vs)).
Proof.
  intros vs Ev B. destruct vo_fields as (F1 & F2 & F3 & F4). destruct sub_list as (vs' & E1 & E2 & E3 & E4 & E5). rewrite Ev in E1. injection E1 as <-.
  destruct (pick_some (vo_order o) vs) as (vals & P & PL).
  { intros k Hk. rewrite F4, map_length. apply E4. assumption. }
  assert (W : forall k, k <= length vs -> wrap64 (Z.of_nat k) = Z.of_nat k).
  { intros k Hk. unfold wrap64. apply Z.mod_small. lia. }
  exists vals. eexists. split; [assumption|]. unfold vo_end. rewrite F1, F2, F3, E2. split; [reflexivity|]. split.
  - intros k Hk. unfold vi_dereference, vi_elementAt, vi_at, vi_advance, vi_increment, vi_set, vo_begin. cbn [vi_vertex vi_sub vi_codim vi_addr].
    rewrite !Z.add_0_l, F2, F3, (W k), Nat2Z.id, E5 by lia. rewrite (pick_nth _ _ _ P). split; [reflexivity|]. split; [reflexivity|].
    rewrite Nat2Z.inj_succ. reflexivity.
  - intros k Hk. unfold vi_equals, vi_advance, vi_set, vo_begin. cbn [vi_vertex vi_sub vi_codim vi_addr]. rewrite F1, !Nat.eqb_refl, Z.add_0_l, (W k) by lia. cbn.
    destruct (Nat.eqb_spec k (length vs)) as [->|N]; [apply Z.eqb_refl|]. apply Z.eqb_neq. lia.
Qed.

(** getReduced is reduceOrder of the ids of the vertices of the subentity *)
Theorem C45_getReduced : forall vs old fuel', re_subEntities r i c dim = Some vs -> (Z.of_nat (length vs) < 2 ^ 63)%Z -> length vs <= fuel' ->
  exists sub, pick ids vs = Some sub
    /\ vo_getReduced o fuel' c i old = reduceList ltb fuel' sub (repeat 0 (length sub))
    /\ exists res, vo_getReduced o fuel' c i old = Some res /\ length res = length vs /\ sameOrder ltb Nat.ltb sub res.
Proof.
  intros vs old fuel' Ev B F. destruct vo_fields as (F1 & F2 & F3 & F4). destruct sub_list as (vs' & E1 & E2 & E3 & E4 & E5). rewrite Ev in E1. injection E1 as <-.
  destruct (pick_some ids vs E4) as (sub & P & PL). exists sub. split; [assumption|].
  destruct (C45_iterate vs Ev B) as (vals & e & V & E & I1 & I2). pose proof (pick_len _ _ _ V) as VL.
  assert (R : vo_getReduced o fuel' c i old = Some (map (rk ltb sub) sub)).
  { unfold vo_getReduced. rewrite F3, F2, E2. cbn [obind]. rewrite E. cbn [obind].
    assert (EB : vo_begin o c i = vi_advance (vo_begin o c i) (Z.of_nat 0)) by reflexivity. rewrite EB.
    assert (EE : e = vi_advance (vo_begin o c i) (Z.of_nat (length vals))).
    { unfold vo_end in E. rewrite F1, F2, F3, E2 in E. injection E as <-. unfold vi_advance, vi_set, vo_begin. cbn [vi_vertex vi_sub vi_codim vi_addr].
      rewrite F1, VL, Z.add_0_l. unfold wrap64. rewrite Z.mod_small by lia. reflexivity. }
    pose proof (reduce_ok VIter nat (vi_dereference o) vi_increment vi_equals Nat.ltb vals (fun k => vi_advance (vo_begin o c i) (Z.of_nat k))) as K.
    rewrite EE at 1. cbv beta in K. rewrite K.
    - rewrite skipn_all2; [|unfold resize; rewrite app_length, firstn_length, repeat_length; lia]. rewrite app_nil_r. f_equal.
      symmetry. apply map_rk_same. apply (pick_same ltb Nat.ltb ids (vo_order o) vs); [|assumption|assumption].
      rewrite F4. apply same_ranks. assumption.
    - intros k Hk. apply I1. lia.
    - intros k Hk. apply I1. lia.
    - intros k Hk. rewrite <- EE, I2, VL by lia. reflexivity.
    - lia.
    - unfold resize. rewrite app_length, firstn_length, repeat_length. lia. }
  rewrite R. split.
  - rewrite list_ok by (rewrite ?repeat_length; lia). rewrite skipn_all2 by (rewrite repeat_length; lia). rewrite app_nil_r. reflexivity.
  - eexists. split; [reflexivity|]. split; [rewrite map_length; assumption|]. apply same_ranks. assumption.
Qed.
End Sub.

(** two subentities that share two vertices order them in the same way *)
Theorem C45_consistent : forall c i c' i' vs vs' res res' old old' k l k' l' v w x y x' y',
  c <= dim -> i < re_size r c -> c' <= dim -> i' < re_size r c' ->
  re_subEntities r i c dim = Some vs -> re_subEntities r i' c' dim = Some vs' -> (Z.of_nat (length ids) < 2 ^ 63)%Z ->
  vo_getReduced o fuel c i old = Some res -> vo_getReduced o fuel c' i' old' = Some res' ->
  nth_error vs k = Some v -> nth_error vs l = Some w -> nth_error vs' k' = Some v -> nth_error vs' l' = Some w ->
  nth_error res k = Some x -> nth_error res l = Some y -> nth_error res' k' = Some x' -> nth_error res' l' = Some y' -> (x <? y) = (x' <? y').
Proof.
  intros c i c' i' vs vs' res res' old old' k l k' l' v w x y x' y' Hc Hi Hc' Hi' Ev Ev' B R R' K1 K2 K3 K4 X Y X' Y'.
  assert (SL : forall d j us, d <= dim -> j < re_size r d -> re_subEntities r j d dim = Some us -> length us <= length ids).
  { intros d j us Hd Hj E. destruct (sub_list d j Hd Hj) as (us' & E1 & _ & E3 & E4 & _). rewrite E in E1. injection E1 as <-.
    rewrite <- (seq_length (length ids) 0). apply NoDup_incl_length.
    - clear -E3. induction E3 as [|a l S IH F]; constructor; [|assumption]. intros H. rewrite Forall_forall in F. specialize (F a H). lia.
    - intros u Hu. apply in_seq. specialize (E4 u Hu). lia. }
  pose proof (SL c i vs Hc Hi Ev). pose proof (SL c' i' vs' Hc' Hi' Ev').
  destruct (C45_getReduced c i Hc Hi vs old fuel Ev ltac:(lia) ltac:(lia)) as (sub & P & _ & re & Q & _ & S). rewrite R in Q. injection Q as <-.
  destruct (C45_getReduced c' i' Hc' Hi' vs' old' fuel Ev' ltac:(lia) ltac:(lia)) as (sub' & P' & _ & re' & Q' & _ & S'). rewrite R' in Q'. injection Q' as <-.
  destruct S as [_ S]. destruct S' as [_ S'].
  pose proof (pick_nth _ _ _ P k) as A1. rewrite K1 in A1. pose proof (pick_nth _ _ _ P l) as A2. rewrite K2 in A2.
  pose proof (pick_nth _ _ _ P' k') as A3. rewrite K3 in A3. pose proof (pick_nth _ _ _ P' l') as A4. rewrite K4 in A4. cbn [obind] in *.
  destruct (sub_list c i Hc Hi) as (us & U1 & _ & _ & U4 & _). rewrite Ev in U1. injection U1 as <-.
  pose proof (U4 v (nth_error_In _ _ K1)) as B1. pose proof (U4 w (nth_error_In _ _ K2)) as B2.
  destruct (nth_error ids v) as [a|] eqn:Ea; [|apply nth_error_None in Ea; lia]. destruct (nth_error ids w) as [b|] eqn:Eb; [|apply nth_error_None in Eb; lia].
  rewrite <- (S k l a b x y A1 A2 X Y). exact (S' k' l' a b x' y' A3 A4 X' Y').
Qed.

(** for the element itself getReduced returns the stored order *)
Theorem C45_whole : forall old, (Z.of_nat (length ids) < 2 ^ 63)%Z -> vo_getReduced o fuel 0 0 old = Some (vo_order o).
Proof.
  intros old B. destruct vo_fields as (F1 & F2 & F3 & F4).
  destruct (C10_reference_element_size id dim Hid) as (r' & E & SZ). rewrite Hr in E. injection E as <-.
  assert (H0 : 0 < re_size r 0) by (rewrite SZ by lia; destruct dim; cbn; lia).
  destruct (C13_subEntities_increasing id dim r 0 0 dim Hid Hr ltac:(lia) H0 ltac:(lia)) as (vs & E1 & E2 & E3 & E4 & E5 & E6).
  specialize (E6 _ (C12_own_type id dim r Hid Hr)). rewrite !Nat.sub_0_r in E6. cbn in E6. rewrite <- SZ in E6 by lia.
  assert (EV : vs = seq 0 (length ids)).
  { rewrite Hl, <- E6. apply sorted_seq; [assumption|]. intros k Hk. rewrite E6. specialize (E4 k Hk). lia. }
  destruct (C45_getReduced 0 0 ltac:(lia) H0 vs old fuel E1 ltac:(lia) ltac:(lia)) as (sub & P & R & _).
  assert (ES : sub = ids).
  { apply nth_error_ext'. intros k. rewrite (pick_nth _ _ _ P), EV. destruct (le_lt_dec (length ids) k) as [K|K].
    - rewrite (proj2 (nth_error_None _ _)) by (rewrite seq_length; assumption). symmetry. apply nth_error_None. assumption.
    - rewrite (nth_error_nth' _ 0) by (rewrite seq_length; assumption). rewrite seq_nth by assumption. reflexivity. }
  subst sub. rewrite R, list_ok by (rewrite ?repeat_length; lia). rewrite skipn_all2 by (rewrite repeat_length; lia). rewrite app_nil_r, F4. reflexivity.
Qed.
End Order.
Print Assumptions C45_construct.
Print Assumptions C45_construct_too_many.
Print Assumptions C45_iterate.
Print Assumptions C45_getReduced.
Print Assumptions C45_consistent.
Print Assumptions C45_whole.

(** the arithmetic of the iterators: positions of a 64 bit machine below 2^63 *)
Theorem C45_distance : forall a b, (0 <= vi_vertex a < 2 ^ 63)%Z -> (0 <= vi_vertex b < 2 ^ 63)%Z ->
  vi_addr a = vi_addr b -> vi_codim a = vi_codim b -> vi_sub a = vi_sub b ->
  exists d, vi_distanceTo a b = Some d /\ vi_distanceTo b a = Some (- d)%Z /\ vi_advance a d = b /\ (d = 0%Z <-> vi_equals a b = true).
Proof.
  intros [a1 a2 a3 a4] [b1 b2 b3 b4]. cbn [vi_vertex vi_addr vi_codim vi_sub]. intros Ha Hb -> -> ->. exists (b4 - a4)%Z.
  unfold vi_distanceTo, vi_advance, vi_set, vi_equals, wrap64, toPtrdiff. cbn [vi_vertex vi_addr vi_codim vi_sub]. rewrite !Nat.eqb_refl. cbn [andb].
  assert (Q : forall z, (0 <= z < 2 ^ 63)%Z -> ((z + 2 ^ 63) mod 2 ^ 64 - 2 ^ 63 = z)%Z) by (intros z Hz; rewrite Z.mod_small by lia; lia).
  split; [f_equal; destruct (Z.ltb_spec a4 b4); rewrite Q by lia; lia|]. split; [f_equal; destruct (Z.ltb_spec b4 a4); rewrite Q by lia; lia|].
  split; [f_equal; replace (a4 + (b4 - a4))%Z with b4 by lia; apply Z.mod_small; lia|]. rewrite Z.eqb_eq. lia.
Qed.
Theorem C45_distance_assert : forall a b, vi_distanceTo a b <> None <-> vi_addr a = vi_addr b /\ vi_codim a = vi_codim b /\ vi_sub a = vi_sub b.
Proof.
  intros a b. unfold vi_distanceTo. destruct (Nat.eqb_spec (vi_addr a) (vi_addr b)); cbn [andb]; [|intuition congruence].
  destruct (Nat.eqb_spec (vi_codim a) (vi_codim b)); cbn [andb]; [|intuition congruence].
  destruct (Nat.eqb_spec (vi_sub a) (vi_sub b)); [|intuition congruence]. split; [auto|discriminate].
Qed.
Theorem C45_decrement : forall it, (0 <= vi_vertex it < 2 ^ 64)%Z -> vi_decrement (vi_increment it) = it /\ vi_increment (vi_decrement it) = it.
Proof.
  intros [a c s v] H. cbn [vi_vertex] in H. unfold vi_decrement, vi_increment, vi_set, wrap64. cbn [vi_vertex vi_addr vi_codim vi_sub]. split; f_equal.
  - rewrite Zminus_mod_idemp_l. replace (v + 1 - 1)%Z with v by lia. apply Z.mod_small. assumption.
  - rewrite Zplus_mod_idemp_l. replace (v - 1 + 1)%Z with v by lia. apply Z.mod_small. assumption.
Qed.
Print Assumptions C45_distance.
Print Assumptions C45_distance_assert.
Print Assumptions C45_decrement.

(** the triangle with vertex ids 30, 10, 20: its edges have vertices 0 1, 0 2, 1 2 *)
Example C45_example :
  reduceList Z.ltb 3 [30; 10; 20]%Z [7; 7; 7; 7] = Some [2; 0; 1; 7]
  /\ match re_infos 0 2 with
     | Some r => match vo_make Z.ltb 3 1 (simplex 2) 2 r [30; 10; 20]%Z with
                 | Some o => map (fun i => vo_getReduced o 3 1 i [9; 9; 9]) [0; 1; 2] = [Some [1; 0]; Some [1; 0]; Some [0; 1]]
                             /\ vo_getReduced o 3 0 0 [] = Some [2; 0; 1]
                 | None => False end
     | None => False end.
Proof. vm_compute. repeat split. Qed.
