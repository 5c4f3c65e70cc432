(** The recursion of test-fromvertexcount.cc enumerates the topologies with a number of corners. *)
From Coq Require Import NArith PeanoNat Bool List Lia.
From Verif Require Import M_Type M_TypeIndex M_RefTopo P_Type P_Type2 S_Topo P_Topo P_RefTopo P_RefTopo2 M_TypeTest.
Import ListNotations.

(** corners of a topology of dimension S d *)
Lemma corners_S id d : 1 <= d ->
  size id (S d) (S d) = if N.testbit id (N.of_nat d) then size id d d * 2 else size id d d + 1.
Proof.
  intros Hd. rewrite (size_tsize (S d)), (size_tsize d) by lia. cbn [topo_of].
  assert (Z : tsize (topo_of id d) (S d) = 0) by (apply tsize_big; rewrite tdim_topo_of; lia).
  destruct (N.testbit id (N.of_nat d)).
  - rewrite tsize_PriS, Z. lia.
  - rewrite tsize_PyrS, Z, tdim_topo_of, Nat.eqb_refl. lia.
Qed.

Lemma size_ext id id' d : (forall k, k < d -> N.testbit id (N.of_nat k) = N.testbit id' (N.of_nat k)) ->
  size id d d = size id' d d.
Proof. intros H. rewrite !size_tsize by lia. f_equal. now apply topo_of_ext. Qed.

Lemma corners_bounds id : forall d, 1 <= d -> d + 1 <= size id d d <= 2 ^ d.
Proof.
  induction d as [|d IH]; [lia|]. intros _. destruct d as [|d].
  - rewrite size_tsize by lia. cbn [topo_of]. destruct (N.testbit id (N.of_nat 0)); cbn; lia.
  - rewrite corners_S by lia. specialize (IH ltac:(lia)). rewrite Nat.pow_succ_r'.
    destruct (N.testbit id (N.of_nat (S d))); lia.
Qed.

Lemma mod_bit_S a d : (a mod bit (S d) = a mod bit d + (if N.testbit a (N.of_nat d) then bit d else 0))%N.
Proof.
  rewrite !bit_pow, Nat2N.inj_succ, N.pow_succ_r', (N.mul_comm 2), N.mod_mul_r by (try apply N.pow_nonzero; lia).
  f_equal. rewrite N.testbit_spec', N.mul_comm || idtac.
  pose proof (N.testbit_spec' a (N.of_nat d)) as E. rewrite <- E. destruct (N.testbit a (N.of_nat d)); cbn [N.b2n]; lia.
Qed.

Lemma mod_bit_lt a d : (a mod bit d < bit d)%N.
Proof. apply N.mod_lt. pose proof (bit_pos d). lia. Qed.

Lemma shiftl_bit d : N.shiftl 1 (N.of_nat d) = bit d.
Proof. reflexivity. Qed.

(** the ids found from a topology [id] of dimension d: its extensions to dimension d + n *)
Lemma guess_in vertices : forall n id d v, 1 <= d -> (id < bit d)%N -> v = size id d d ->
  forall a, In a (guessIds n vertices v id d)
    <-> (a mod bit d = id)%N /\ (a < bit (d + n))%N /\ size a (d + n) (d + n) = vertices.
Proof.
  induction n as [|n IH]; intros id d v Hd Hid Hv a; cbn [guessIds].
  - rewrite Nat.add_0_r. destruct (Nat.eqb_spec v vertices) as [E|E]; cbn [In]; split.
    + intros [<-|[]]. rewrite N.mod_small by exact Hid. split; [reflexivity|]. split; [exact Hid|congruence].
    + intros (A1 & A2 & A3). left. rewrite N.mod_small in A1 by exact A2. congruence.
    + intros [].
    + intros (A1 & A2 & A3). rewrite N.mod_small in A1 by exact A2. subst a. congruence.
  - rewrite in_app_iff, shiftl_bit. replace (d + 1) with (S d) by lia.
    assert (B : bit (S d) = (2 * bit d)%N) by (rewrite !bit_pow, Nat2N.inj_succ, N.pow_succ_r'; reflexivity).
    assert (T0 : N.testbit id (N.of_nat d) = false) by (apply (proj1 (lt_bit_bits _ _) Hid); lia).
    assert (T1 : forall k, k <= d -> N.testbit (id + bit d) (N.of_nat k) = if k =? d then true else N.testbit id (N.of_nat k)).
    { intros k Hk. pose proof (N.testbit_spec' (id + bit d) (N.of_nat k)) as E. pose proof (N.testbit_spec' id (N.of_nat k)) as E'.
      destruct (Nat.eqb_spec k d) as [->|K].
      - rewrite bit_pow in E. replace (id + 2 ^ N.of_nat d)%N with (id + 1 * 2 ^ N.of_nat d)%N in E by lia.
        rewrite N.div_add in E by (apply N.pow_nonzero; lia). rewrite bit_pow in Hid. rewrite (N.div_small id) in E by exact Hid.
        rewrite bit_pow. replace (id + 2 ^ N.of_nat d)%N with (id + 1 * 2 ^ N.of_nat d)%N by lia. destruct (N.testbit (id + 1 * 2 ^ N.of_nat d) (N.of_nat d)); [reflexivity|exfalso; cbn [N.b2n] in E; rewrite N.add_0_l in E; discriminate E].
      - assert (P : (bit d = 2 ^ (N.of_nat d - N.of_nat k - 1) * 2 * 2 ^ N.of_nat k)%N).
        { rewrite bit_pow. replace (N.of_nat d) with ((N.of_nat d - N.of_nat k - 1) + 1 + N.of_nat k)%N at 1 by lia.
          rewrite !N.pow_add_r, N.pow_1_r. reflexivity. }
        rewrite P, N.div_add in E by (apply N.pow_nonzero; lia). rewrite N.mod_add in E by lia. rewrite <- P in E.
        rewrite <- E' in E. apply N.b2n_inj. exact E. }
    rewrite (IH id (S d) (v + 1)), (IH (id + bit d)%N (S d) (v * 2)); try lia.
    + replace (S d + n) with (d + S n) by lia. rewrite mod_bit_S. pose proof (mod_bit_lt a d) as L.
      pose proof (bit_pos d). generalize dependent (a mod bit d)%N. intros m L. destruct (N.testbit a (N.of_nat d)); split.
      * intros [(A & ?)|(A & ?)]; (split; [lia|assumption]).
      * intros (A & ?). right. split; [lia|assumption].
      * intros [(A & ?)|(A & ?)]; (split; [lia|assumption]).
      * intros (A & ?). left. split; [lia|assumption].
    + rewrite corners_S by exact Hd. rewrite T1, Nat.eqb_refl by lia. rewrite Hv. f_equal. apply size_ext.
      intros k Hk. rewrite T1 by lia. destruct (Nat.eqb_spec k d); [lia|reflexivity].
    + rewrite corners_S, T0 by exact Hd. lia.
Qed.

Lemma NoDup_app_disj {A} (l m : list A) : NoDup l -> NoDup m -> (forall x, In x l -> In x m -> False) -> NoDup (l ++ m).
Proof.
  induction l as [|x l IH]; intros Hl Hm H; [exact Hm|]. inversion Hl as [|? ? X Y]; subst. cbn. constructor.
  - rewrite in_app_iff. intros [K|K]; [tauto|]. apply (H x); [now left|exact K].
  - apply IH; [assumption|assumption|]. intros y Hy. apply H. now right.
Qed.

Lemma guess_in_mod vertices : forall n id d v a, In a (guessIds n vertices v id d) -> (exists k, a = id + k * bit d)%N.
Proof.
  induction n as [|n IH]; intros id d v a; cbn [guessIds].
  - destruct (v =? vertices); [|intros []]. intros [<-|[]]. exists 0%N. lia.
  - rewrite in_app_iff. replace (d + 1) with (S d) by lia.
    assert (B : bit (S d) = (2 * bit d)%N) by (rewrite !bit_pow, Nat2N.inj_succ, N.pow_succ_r'; reflexivity).
    rewrite shiftl_bit. intros [H|H]; apply IH in H; destruct H as [k ->]; rewrite B; [exists (2 * k)%N|exists (2 * k + 1)%N]; lia.
Qed.

Lemma guess_nodup vertices : forall n id d v, NoDup (guessIds n vertices v id d).
Proof.
  induction n as [|n IH]; intros id d v; cbn [guessIds].
  - destruct (v =? vertices); repeat constructor; intros [].
  - apply NoDup_app_disj; [apply IH|apply IH|]. intros a H1 H2. apply guess_in_mod in H1, H2.
    replace (d + 1) with (S d) in * by lia. rewrite shiftl_bit in H2.
    assert (B : bit (S d) = (2 * bit d)%N) by (rewrite !bit_pow, Nat2N.inj_succ, N.pow_succ_r'; reflexivity).
    destruct H1 as [k ->], H2 as [l H2]. rewrite B in H2. pose proof (bit_pos d).
    assert (E : (2 * k = 1 + 2 * l)%N) by (apply (N.mul_cancel_r _ _ (bit d)); lia). lia.
Qed.

(** odd topology ids *)
Lemma odd_mod a : (a mod bit 1 = 1)%N <-> N.odd a = true.
Proof.
  change (bit 1) with 2%N. rewrite <- N.bit0_mod, N.bit0_odd. destruct (N.odd a); cbn [N.b2n]; split; intros; try reflexivity; discriminate.
Qed.

Lemma guess_all dim vertices a : 2 <= dim ->
  In a (guessIds (dim - 1) vertices 2 1 1) <-> N.odd a = true /\ (a < 2 ^ N.of_nat dim)%N /\ size a dim dim = vertices.
Proof.
  intros H. rewrite (guess_in vertices (dim - 1) 1 1 2) by (try reflexivity; lia).
  replace (1 + (dim - 1)) with dim by lia. rewrite odd_mod, bit_pow. reflexivity.
Qed.

Lemma singleton_list {A} (l : list A) x : NoDup l -> ((match l with [y] => Some y | _ => None end) = Some x <-> In x l /\ forall y, In y l -> y = x).
Proof.
  intros N. destruct l as [|y [|z l]].
  - split; [discriminate|intros [[] _]].
  - split; [intros E; injection E as <-; cbn; split; [now left|intros z [<-|[]]; reflexivity]|].
    intros [H _]. cbn in H. destruct H as [->|[]]. reflexivity.
  - split; [discriminate|]. intros [_ H]. inversion N as [|? ? X Y]; subst. exfalso. apply X.
    rewrite (H y) by (now left). rewrite <- (H z) by (right; now left). now left.
Qed.

Lemma guess_some dim vertices a : 2 <= dim <= 31 ->
  (guessTopologyId dim vertices = Some a
   <-> (N.odd a = true /\ (a < 2 ^ N.of_nat dim)%N /\ size a dim dim = vertices)
       /\ forall b, N.odd b = true -> (b < 2 ^ N.of_nat dim)%N -> size b dim dim = vertices -> b = a).
Proof.
  intros H. unfold guessTopologyId. destruct (Nat.eqb_spec dim 0), (Nat.eqb_spec dim 1); try lia. cbn [orb].
  destruct (Nat.leb_spec 32 dim); [lia|].
  destruct (Nat.ltb_spec vertices (dim + 1)) as [C|C]; cbn [orb].
  { split; [discriminate|]. intros ((_ & _ & E) & _). pose proof (corners_bounds a dim ltac:(lia)). lia. }
  destruct (Nat.ltb_spec (2 ^ dim) vertices) as [C'|C'].
  { split; [discriminate|]. intros ((_ & _ & E) & _). pose proof (corners_bounds a dim ltac:(lia)). lia. }
  rewrite singleton_list by apply guess_nodup. rewrite guess_all by lia. split; intros [A B]; (split; [exact A|]).
  - intros b B1 B2 B3. apply B. rewrite guess_all by lia. auto.
  - intros b Hb. rewrite guess_all in Hb by lia. destruct Hb as (B1 & B2 & B3). auto.
Qed.

(** bit 0 does not matter *)
Lemma set_bit0_odd a : N.odd (N.setbit a 0) = true.
Proof. rewrite <- N.bit0_odd. apply N.setbit_eq. Qed.
Lemma set_bit0_half a : N.shiftr (N.setbit a 0) 1 = N.shiftr a 1.
Proof. apply N.bits_inj. intros k. rewrite !N.shiftr_spec', N.setbit_eqb. replace (0 =? k + 1)%N with false by (symmetry; apply N.eqb_neq; lia). reflexivity. Qed.
Lemma set_bit0_lt a d : 1 <= d -> (a < 2 ^ N.of_nat d)%N -> (N.setbit a 0 < 2 ^ N.of_nat d)%N.
Proof.
  rewrite <- bit_pow. intros Hd H. apply lt_bit_bits. intros k Hk. rewrite N.setbit_eqb. rewrite (proj1 (lt_bit_bits _ _) H k Hk).
  replace (0 =? k)%N with false by (symmetry; apply N.eqb_neq; lia). reflexivity.
Qed.
Lemma corners_half a b : N.shiftr a 1 = N.shiftr b 1 -> forall d, size a d d = size b d d.
Proof.
  intros E d. assert (T : forall k, 1 <= k -> N.testbit a (N.of_nat k) = N.testbit b (N.of_nat k)).
  { intros k Hk. replace (N.of_nat k) with (N.of_nat (k - 1) + 1)%N by lia. rewrite <- !N.shiftr_spec'. now rewrite E. }
  induction d as [|d IH]; [reflexivity|]. destruct d as [|d].
  - rewrite !size_tsize by lia. cbn [topo_of]. destruct (N.testbit a (N.of_nat 0)), (N.testbit b (N.of_nat 0)); reflexivity.
  - rewrite (corners_S a (S d)), (corners_S b (S d)), T, IH by lia. reflexivity.
Qed.
Lemma odd_half a b : N.odd a = true -> N.odd b = true -> N.shiftr a 1 = N.shiftr b 1 -> a = b.
Proof.
  intros A B E. apply N.bits_inj. intros k. destruct (N.eq_dec k 0) as [->|K].
  - rewrite !N.bit0_odd. congruence.
  - replace k with (k - 1 + 1)%N by lia. rewrite <- !N.shiftr_spec'. now rewrite E.
Qed.
