(** Sizes, the bound of the bitset, and the SubEntityInfo tables. *)
From Coq Require Import NArith PeanoNat ZArith Bool List Lia Sorted.
From Verif Require Import M_Type M_TypeIndex M_RefTopo P_Type P_Type2 S_Topo P_Topo P_RefTopo.
Import ListNotations.

(** ** Size formulas *)

Lemma binomial_0 n : binomial n 0 = 1. Proof. destruct n; reflexivity. Qed.
Lemma binomial_S n k : binomial (S n) (S k) = binomial n k + binomial n (S k).
Proof. reflexivity. Qed.
Lemma binomial_big n : forall k, n < k -> binomial n k = 0.
Proof.
  induction n as [|n IH]; intros k H; destruct k; try lia; [reflexivity|].
  rewrite binomial_S, !IH by lia. reflexivity.
Qed.
Lemma binomial_n n : binomial n n = 1.
Proof.
  induction n as [|n IH]; [reflexivity|]. rewrite binomial_S, IH, binomial_big by lia. reflexivity.
Qed.
Lemma binomial_pos n : forall k, k <= n -> 1 <= binomial n k.
Proof.
  induction n as [|n IH]; intros k H.
  - replace k with 0 by lia. reflexivity.
  - destruct k; [rewrite binomial_0; lia|]. rewrite binomial_S.
    specialize (IH k ltac:(lia)). lia.
Qed.

Fixpoint Simp (n : nat) : Topo := match n with 0 => Pt | S m => Pyr (Simp m) end.
Fixpoint Cub (n : nat) : Topo := match n with 0 => Pt | S m => Pri (Cub m) end.
Lemma tdim_Simp n : tdim (Simp n) = n. Proof. induction n; simpl; auto. Qed.
Lemma tdim_Cub n : tdim (Cub n) = n. Proof. induction n; simpl; auto. Qed.

Lemma tsize_Simp n : forall c, c <= n -> tsize (Simp n) c = binomial (S n) c.
Proof.
  induction n as [|n IH]; intros c H.
  - replace c with 0 by lia. reflexivity.
  - destruct c; [rewrite tsize_0; reflexivity|]. cbn [Simp]. rewrite tsize_PyrS, tdim_Simp.
    rewrite IH by lia. rewrite (binomial_S (S n) c).
    destruct (Nat.eqb_spec (S c) (S n)) as [E|E].
    + injection E as ->. rewrite (tsize_big _ (S n)) by (rewrite tdim_Simp; lia).
      rewrite (binomial_n (S n)). lia.
    + rewrite IH by lia. lia.
Qed.

Lemma tsize_Cub n : forall c, tsize (Cub n) c = binomial n c * 2 ^ c.
Proof.
  induction n as [|n IH]; intros c.
  - destruct c; [reflexivity|]. unfold tsize. reflexivity.
  - destruct c; [rewrite tsize_0; reflexivity|]. cbn [Cub]. rewrite tsize_PriS, !IH.
    rewrite binomial_S, Nat.pow_succ_r'. lia.
Qed.

Lemma topo_of_simplex n : topo_of 0 n = Simp n.
Proof. induction n as [|n IH]; simpl; congruence. Qed.

Lemma topo_of_cube_gen n : forall m, n <= m -> topo_of (bit m - 1) n = Cub n.
Proof.
  induction n as [|n IH]; intros m H; cbn [topo_of Cub]; [reflexivity|].
  rewrite bit_pow, N.sub_1_r, <- N.ones_equiv, N.ones_spec_low by lia. f_equal.
  rewrite N.ones_equiv, <- N.sub_1_r, <- bit_pow. apply IH. lia.
Qed.

Lemma tsize_le T : forall c, tsize T c <= binomial (tdim T) c * 2 ^ c.
Proof.
  induction T as [|b IH|b IH]; intros c.
  - destruct c; [reflexivity|]. unfold tsize. simpl. lia.
  - destruct c; [rewrite tsize_0, binomial_0; simpl; lia|].
    rewrite tsize_PriS. cbn [tdim]. rewrite binomial_S, Nat.pow_succ_r'.
    pose proof (IH c). pose proof (IH (S c)) as H2. rewrite Nat.pow_succ_r' in H2. nia.
  - destruct c; [rewrite tsize_0, binomial_0; simpl; lia|].
    rewrite tsize_PyrS. cbn [tdim]. rewrite binomial_S, Nat.pow_succ_r'.
    pose proof (IH c). pose proof (IH (S c)) as H2. rewrite Nat.pow_succ_r' in H2.
    destruct (Nat.eqb_spec (S c) (S (tdim b))) as [E|E].
    + injection E as ->. rewrite binomial_n in *.
      pose proof (Nat.pow_nonzero 2 (tdim b)). nia.
    + nia.
Qed.

Lemma fold_max_ge (g : nat -> nat) l : forall a,
  a <= fold_left (fun m c => Nat.max m (g c)) l a.
Proof.
  induction l as [|x l IH]; intros a; simpl; [lia|]. specialize (IH (Nat.max a (g x))). lia.
Qed.
Lemma fold_max_in (g : nat -> nat) l : forall a c, In c l ->
  g c <= fold_left (fun m c => Nat.max m (g c)) l a.
Proof.
  induction l as [|x l IH]; intros a c H; [easy|]. simpl. destruct H as [->|H].
  - pose proof (fold_max_ge g l (Nat.max a (g c))). lia.
  - now apply IH.
Qed.

Lemma tsize_le_max T c : c <= tdim T -> tsize T c <= maxSubEntityCount (tdim T).
Proof.
  intros H. etransitivity; [apply tsize_le|]. unfold maxSubEntityCount.
  apply (fold_max_in (fun codim => binomial (tdim T) codim * 2 ^ codim)). apply in_seq. lia.
Qed.

(** ** Euler relation *)

Open Scope Z_scope.
Fixpoint sumZ (n : nat) (f : nat -> Z) : Z :=
  match n with O => 0 | S m => sumZ m f + f m end.

Lemma sumZ_ext n f g : (forall k, (k < n)%nat -> f k = g k) -> sumZ n f = sumZ n g.
Proof. induction n; intros H; simpl; [reflexivity|]. rewrite IHn, H; auto. Qed.
Lemma sumZ_add n f g : sumZ n (fun k => f k + g k) = sumZ n f + sumZ n g.
Proof. induction n; simpl; lia. Qed.
Lemma sumZ_mul n a f : sumZ n (fun k => a * f k) = a * sumZ n f.
Proof. induction n; simpl; lia. Qed.
Lemma sumZ_shift n f : sumZ (S n) f = f O + sumZ n (fun k => f (S k)).
Proof. induction n; [simpl; lia|]. cbn [sumZ] in *. lia. Qed.

Definition sgn (k : nat) : Z := if Nat.even k then 1 else -1.
Lemma sgn_S k : sgn (S k) = - sgn k.
Proof. unfold sgn. rewrite Nat.even_succ, <- Nat.negb_even. destruct (Nat.even k); reflexivity. Qed.

Definition euler (T : Topo) : Z :=
  sumZ (S (tdim T)) (fun c => sgn (tdim T - c) * Z.of_nat (tsize T c)).

Lemma euler_1 T : euler T = 1.
Proof.
  induction T as [|b IH|b IH].
  - reflexivity.
  - unfold euler in *. cbn [tdim]. set (d := tdim b) in *.
    rewrite sumZ_shift, tsize_0, Nat.sub_0_r.
    rewrite (sumZ_ext (S d) _ (fun c => sgn (d - c) * Z.of_nat (tsize b (S c))
                                        + 2 * (sgn (d - c) * Z.of_nat (tsize b c)))).
    2:{ intros k Hk. rewrite tsize_PriS. replace (S d - S k)%nat with (d - k)%nat by lia. lia. }
    rewrite sumZ_add, sumZ_mul, IH.
    rewrite sumZ_shift, tsize_0, Nat.sub_0_r in IH.
    cbn [sumZ]. rewrite (tsize_big b (S d)) by (unfold d; lia).
    rewrite (sumZ_ext d (fun c => sgn (d - c) * Z.of_nat (tsize b (S c)))
                        (fun k => -1 * (sgn (d - S k) * Z.of_nat (tsize b (S k))))).
    2:{ intros k Hk. replace (d - k)%nat with (S (d - S k)) by lia. rewrite sgn_S. lia. }
    rewrite sumZ_mul, sgn_S. lia.
  - unfold euler in *. cbn [tdim]. set (d := tdim b) in *.
    rewrite sumZ_shift, tsize_0, Nat.sub_0_r.
    rewrite (sumZ_ext (S d) _ (fun c => sgn (d - c) * Z.of_nat (tsize b (S c))
                                        + (sgn (d - c) * Z.of_nat (tsize b c)
                                        + (if Nat.eqb c d then 1 else 0)))).
    2:{ intros k Hk. rewrite tsize_PyrS. fold d. replace (S d - S k)%nat with (d - k)%nat by lia.
        cbn [Nat.eqb]. destruct (Nat.eqb_spec k d); [subst; rewrite Nat.sub_diag; change (sgn 0) with 1|]; lia. }
    rewrite sumZ_add, sumZ_add, IH.
    rewrite sumZ_shift, tsize_0, Nat.sub_0_r in IH.
    cbn [sumZ]. rewrite (tsize_big b (S d)) by (unfold d; lia).
    rewrite (sumZ_ext d (fun c => sgn (d - c) * Z.of_nat (tsize b (S c)))
                        (fun k => -1 * (sgn (d - S k) * Z.of_nat (tsize b (S k))))).
    2:{ intros k Hk. replace (d - k)%nat with (S (d - S k)) by lia. rewrite sgn_S. lia. }
    rewrite (sumZ_ext d (fun c => if Nat.eqb c d then 1 else 0) (fun k => 0 * 0)).
    2:{ intros k Hk. destruct (Nat.eqb_spec k d); lia. }
    rewrite !sumZ_mul, sgn_S, Nat.eqb_refl. lia.
Qed.
Close Scope Z_scope.

(** ** Option helpers *)

Lemma omap_Some {A B} (f : A -> option B) l :
  (forall a, In a l -> exists b, f a = Some b) -> exists bs, omap f l = Some bs.
Proof.
  induction l as [|a l IH]; intros H; [simpl; eauto|]. simpl.
  destruct (H a) as [b ->]; [now left|]. simpl. destruct IH as [bs ->]; [intros; apply H; now right|].
  simpl. eauto.
Qed.
Lemma omap_nth {A B} (f : A -> option B) l : forall bs, omap f l = Some bs ->
  length bs = length l /\ forall k a, nth_error l k = Some a -> f a = nth_error bs k.
Proof.
  induction l as [|a l IH]; intros bs H; simpl in H.
  - injection H as <-. split; [reflexivity|]. intros [|k] a; discriminate.
  - destruct (f a) as [b|] eqn:E; [|discriminate]. simpl in H.
    destruct (omap f l) as [bs'|] eqn:E'; [|discriminate]. simpl in H. injection H as <-.
    destruct (IH _ eq_refl) as [L N]. split; [simpl; congruence|].
    intros [|k] x Hx; simpl in *; [congruence|]. now apply N.
Qed.
Lemma omap_ext_in {A B} (f g : A -> option B) l :
  (forall a, In a l -> f a = g a) -> omap f l = omap g l.
Proof.
  induction l as [|a l IH]; intros H; [reflexivity|]. simpl. rewrite H by now left.
  rewrite IH; auto. intros; apply H; now right.
Qed.

(** ** Offsets *)

Definition psum (F : Topo) (n : nat) : nat := list_sum (map (tsize F) (seq 0 n)).
Lemma psum_S F n : psum F (S n) = psum F n + tsize F n.
Proof. unfold psum. rewrite seq_S, map_app, list_sum_app. simpl. lia. Qed.
Lemma psum_mono F a b : a <= b -> psum F a <= psum F b.
Proof. induction 1; [lia|]. rewrite psum_S. lia. Qed.

Lemma nth_running l : forall acc k, k < length l ->
  nth k (running acc l) 0 = acc + list_sum (firstn (S k) l).
Proof.
  induction l as [|x l IH]; intros acc k H; simpl in H; [lia|].
  destruct k; [simpl; lia|]. cbn [running nth]. rewrite IH by lia. cbn [firstn list_sum fold_right]. simpl. lia.
Qed.

Lemma firstn_seq_map {A} (g : nat -> A) n k a : k <= n ->
  firstn k (map g (seq a n)) = map g (seq a k).
Proof.
  intros H. rewrite firstn_map. f_equal.
  revert a k H. induction n as [|n IH]; intros a k H.
  - replace k with 0 by lia. reflexivity.
  - destruct k; [reflexivity|]. simpl. f_equal. apply IH. lia.
Qed.

Lemma list_sum_shift (g : nat -> nat) c n :
  list_sum (map (fun cc => g (cc - c)) (seq c n)) = list_sum (map g (seq 0 n)).
Proof.
  replace (seq c n) with (map (fun x => c + x) (seq 0 n)).
  - rewrite map_map. f_equal. apply map_ext. intros. f_equal. lia.
  - clear. revert c. induction n as [|n IH]; intros c; [reflexivity|].
    simpl. f_equal; [lia|]. rewrite <- seq_shift, map_map. rewrite <- (IH (S c)).
    apply map_ext. intros. lia.
Qed.

Lemma offsets_nth sid dim c cc F : c <= dim -> topo_of sid (dim - c) = F -> cc <= S dim ->
  nth cc (offsets sid dim c) 0 = psum F (cc - c).
Proof.
  intros Hc HF Hcc. unfold offsets.
  destruct (Nat.le_gt_cases cc c) as [L|L].
  - rewrite app_nth1 by (rewrite repeat_length; lia).
    rewrite nth_repeat. replace (cc - c) with 0 by lia. reflexivity.
  - rewrite app_nth2; rewrite repeat_length; [|lia].
    rewrite nth_running by (rewrite map_length, seq_length; lia).
    rewrite firstn_seq_map by lia.
    replace (S (cc - (c + 1))) with (cc - c) by lia.
    rewrite (map_ext_in _ (fun x => tsize F (x - c))).
    + rewrite (list_sum_shift (tsize F)). reflexivity.
    + intros x Hx. apply in_seq in Hx. rewrite size_tsize, HF by lia. reflexivity.
Qed.

(** ** Filling the numbering table *)

Definition blocks (T : Topo) (f : Face) (a n : nat) : list nat :=
  concat (map (subnums T f) (seq a n)).

Lemma blocks_length T f a n : length (blocks T f a n) + psum (ftype T f) a = psum (ftype T f) (a + n).
Proof.
  revert a. induction n as [|n IH]; intros a; unfold blocks in *; simpl.
  - now rewrite Nat.add_0_r.
  - rewrite app_length, subnums_length. specialize (IH (S a)). rewrite psum_S in IH.
    replace (a + S n) with (S a + n) by lia. lia.
Qed.

Lemma fill_numbering_spec dim id f (Hid : (id < bit dim)%N) :
  let T := topo_of id dim in
  is_face T f ->
  let c := fcod T f in
  forall off, (forall cc, c <= cc <= S dim -> nth cc off 0 = psum (ftype T f) (cc - c)) ->
  forall n cc m, c <= cc -> cc + n <= S dim -> psum (ftype T f) (cc + n - c) <= length m ->
  exists m', fill_numbering id dim c (fidx T f) off (seq cc n) m = Some m'
             /\ Wrote m m' (psum (ftype T f) (cc - c)) (blocks T f (cc - c) n).
Proof.
  intros T Hf c off Hoff. induction n as [|n IH]; intros cc m Hc Hn Hm.
  - exists m. split; [reflexivity|]. apply Wrote_nil.
  - cbn [seq fill_numbering].
    pose proof (psum_mono (ftype T f) (cc + 1 - c) (cc + S n - c) ltac:(lia)) as PM.
    destruct (subTopologyNumbering_spec dim id f (cc - c) (nth cc off 0) (nth (cc + 1) off 0) m)
      as (m1 & E1 & W1); auto.
    + fold T c. lia.
    + rewrite !Hoff by lia. replace (cc + 1 - c) with (S (cc - c)) by lia. now rewrite psum_S.
    + rewrite Hoff by lia. lia.
    + fold T c in E1. rewrite E1. cbn [obind].
      destruct (IH (S cc) m1) as (m2 & E2 & W2); [lia|lia| |].
      * destruct W1 as [L _]. rewrite L. replace (S cc + n - c) with (cc + S n - c) by lia. assumption.
      * exists m2. split; [assumption|]. fold T in W1. rewrite Hoff in W1 by lia.
        unfold blocks. cbn [seq map concat].
        replace (S cc - c) with (S (cc - c)) in W2 by lia.
        eapply Wrote_app; [exact W1|]. rewrite subnums_length. rewrite psum_S in W2. exact W2.
Qed.

Lemma nth_error_ext' {A} (l : list A) : forall l', (forall p, nth_error l p = nth_error l' p) -> l = l'.
Proof.
  induction l as [|a l IH]; intros [|a' l'] H; auto; try (specialize (H 0); discriminate).
  f_equal; [specialize (H 0); simpl in H; congruence|]. apply IH. intros p. apply (H (S p)).
Qed.

Lemma Wrote_all m m' l : Wrote m m' 0 l -> length l = length m -> m' = map Some l.
Proof.
  intros [L W] E. apply nth_error_ext'. intros p. rewrite W.
  destruct (Nat.ltb_spec p (length l)) as [H|H].
  - simpl. destruct (Nat.ltb_spec p (length l)); [|lia]. rewrite Nat.sub_0_r.
    destruct (nth_error l p) eqn:Q.
    + symmetry. now apply map_nth_error.
    + apply nth_error_None in Q. lia.
  - simpl. destruct (Nat.ltb_spec p (length l)); [lia|].
    transitivity (@None (option nat)); [|symmetry]; apply nth_error_None; [lia|rewrite map_length; lia].
Qed.

Lemma omap_rd_block A X C :
  omap (rd (map Some (A ++ X ++ C))) (seq (length A) (length X)) = Some X.
Proof.
  revert A. induction X as [|x X IH]; intros A; [reflexivity|].
  cbn [length seq omap]. unfold rd at 1. rewrite map_app. cbn [app map].
  rewrite nth_error_app2; rewrite map_length; [|lia]. rewrite Nat.sub_diag. cbn [nth_error obind].
  specialize (IH (A ++ [x])). rewrite app_length in IH. simpl (length A + length [x]) in IH.
  rewrite Nat.add_1_r, <- app_assoc in IH. cbn [app] in IH.
  rewrite map_app in IH. cbn [app map] in IH. rewrite IH. reflexivity.
Qed.

(** ** Flags *)

Lemma set_flag_spec f : forall k, k < length f ->
  exists f', set_flag f k = Some f' /\ length f' = length f
             /\ forall p, nth_error f' p = if p =? k then Some true else nth_error f p.
Proof.
  induction f as [|x f IH]; intros k Hk; simpl in Hk; [lia|]. destruct k.
  - exists (true :: f). repeat split. intros [|p]; reflexivity.
  - destruct (IH k ltac:(lia)) as (f' & E & L & N). exists (x :: f'). simpl. rewrite E.
    repeat split; [simpl; lia|]. intros [|p]; [reflexivity|]. simpl. apply N.
Qed.

Lemma fill_flags_spec nums : forall f, (forall k, In k nums -> k < length f) ->
  exists f', fill_flags f nums = Some f' /\ length f' = length f
             /\ forall p, nth_error f' p
                          = if existsb (Nat.eqb p) nums then Some true else nth_error f p.
Proof.
  induction nums as [|k nums IH]; intros f H; [exists f; auto|].
  simpl. destruct (set_flag_spec f k) as (f1 & E1 & L1 & N1); [apply H; now left|].
  rewrite E1. cbn [obind]. destruct (IH f1) as (f2 & E2 & L2 & N2).
  { intros. rewrite L1. apply H. now right. }
  exists f2. split; [assumption|]. split; [congruence|]. intros p. rewrite N2, N1.
  destruct (p =? k); simpl; destruct (existsb _ nums); reflexivity.
Qed.

(** ** The info record *)

(** what the numbers stored for subentity [f] have to be *)
Definition want (T : Topo) (f : Face) (cc : nat) : list nat :=
  if fcod T f <=? cc then subnums T f (cc - fcod T f) else [].

Record info_ok (id : N) (dim : nat) (f : Face) (s : SubEntityInfo) : Prop := {
  ok_type : type_ s = GT2 (subTopologyId id dim (fcod (topo_of id dim) f) (fidx (topo_of id dim) f))
                          (dim - fcod (topo_of id dim) f);
  ok_size : forall cc, cc <= dim -> info_size s cc = length (want (topo_of id dim) f cc);
  ok_numbers : forall cc, cc <= dim -> info_numbers s cc = Some (want (topo_of id dim) f cc);
  ok_number : forall ii cc, cc <= dim -> ii < length (want (topo_of id dim) f cc) ->
              info_number s ii cc = nth_error (want (topo_of id dim) f cc) ii;
  ok_contains : forall cc k, cc <= dim -> k < maxSubEntityCount dim ->
              info_contains s cc k = Some (existsb (Nat.eqb k) (want (topo_of id dim) f cc)) }.

Lemma blocks_split T f a n k : k < n ->
  exists A C, blocks T f a n = A ++ subnums T f (a + k) ++ C
              /\ length A + psum (ftype T f) a = psum (ftype T f) (a + k).
Proof.
  intros H. exists (blocks T f a k), (blocks T f (a + S k) (n - S k)). split.
  - unfold blocks. replace n with (k + S (n - S k)) at 1 by lia.
    rewrite seq_app, map_app, concat_app. f_equal. simpl. do 2 f_equal.
    replace (a + S k) with (S (a + k)) by lia. reflexivity.
  - apply blocks_length.
Qed.

Lemma want_range T f cc k : is_face T f -> cc <= tdim T -> In k (want T f cc) -> k < tsize T cc.
Proof.
  intros Hf Hcc. unfold want. destruct (Nat.leb_spec (fcod T f) cc); [|easy]. intros H1.
  replace cc with (fcod T f + (cc - fcod T f)) by lia. eapply subnums_range; eauto.
Qed.

Lemma info_initialize_spec dim id f :
  (id < bit dim)%N -> is_face (topo_of id dim) f ->
  exists s, info_initialize id dim (fcod (topo_of id dim) f) (fidx (topo_of id dim) f) = Some s
            /\ info_ok id dim f s.
Proof.
  intros Hid Hf. set (T := topo_of id dim) in *.
  destruct (subTopologyId_spec dim id f Hid Hf) as [SU SL]. fold T in SU, SL.
  set (c := fcod T f) in *. set (i := fidx T f) in *.
  pose proof (fcod_le T f Hf) as Hc. unfold T in Hc at 2. rewrite tdim_topo_of in Hc. fold c in Hc.
  unfold info_initialize. set (sid := subTopologyId id dim c i) in *.
  set (off := offsets sid dim c) in *. set (F := ftype T f) in *.
  assert (Hoff : forall cc, cc <= S dim -> nth cc off 0 = psum F (cc - c)).
  { intros cc H. unfold off. now apply offsets_nth. }
  set (cap := nth (dim + 1) off 0) in *.
  assert (Hcap : cap = psum F (S dim - c)).
  { unfold cap. rewrite Hoff by lia. f_equal. lia. }
  destruct (fill_numbering_spec dim id f Hid Hf off) with (n := S dim - c) (cc := c) (m := repeat (@None nat) cap)
    as (mem & E & W).
  { intros cc H. apply Hoff. fold T. lia. }
  { fold T c. lia. } { fold T c. lia. }
  { fold T c F. rewrite repeat_length, Hcap. replace (c + (S dim - c) - c) with (S dim - c) by lia. lia. }
  fold T in E, W. fold c i F in E, W. rewrite E. cbn [obind].
  rewrite Nat.sub_diag in W. change (psum F 0) with 0 in W.
  assert (LB : length (blocks T f 0 (S dim - c)) = cap).
  { pose proof (blocks_length T f 0 (S dim - c)) as Q. fold F in Q.
    change (psum F 0) with 0 in Q. rewrite Hcap. rewrite Nat.add_0_l in Q. lia. }
  apply Wrote_all in W; [|now rewrite repeat_length]. subst mem.
  set (L := blocks T f 0 (S dim - c)) in *.
  set (s0 := mkInfo off (GT2 sid (dim - c)) (map Some L) []).
  assert (NUM : forall cc, cc <= dim -> info_numbers s0 cc = Some (want T f cc)).
  { intros cc H. unfold info_numbers, s0. cbn [offset_ numbering_]. rewrite !Hoff by lia.
    unfold want. fold c. destruct (Nat.leb_spec c cc) as [G|G].
    - destruct (blocks_split T f 0 (S dim - c) (cc - c)) as (A & C & EL & LA); [lia|].
      fold L in EL. fold F in LA. change (psum F 0) with 0 in LA. rewrite Nat.add_0_l in *.
      rewrite Nat.add_0_r in LA. rewrite <- LA, EL.
      replace (cc + 1 - c) with (S (cc - c)) by lia. rewrite psum_S, <- LA.
      replace (length A + tsize F (cc - c) - length A) with (length (subnums T f (cc - c)))
        by (rewrite subnums_length; fold F; lia).
      apply omap_rd_block.
    - replace (cc + 1 - c) with 0 by lia. replace (cc - c) with 0 by lia. reflexivity. }
  destruct (omap_Some (fun cc => obind (info_numbers s0 cc)
              (fill_flags (repeat false (maxSubEntityCount dim)))) (seq 0 (S dim))) as [fl EF].
  { intros cc H. apply in_seq in H. rewrite NUM by lia. cbn [obind].
    destruct (fill_flags_spec (want T f cc) (repeat false (maxSubEntityCount dim))) as (f' & Q & _); [|eauto].
    intros k Hk. rewrite repeat_length.
    apply want_range in Hk; [|assumption|unfold T; rewrite tdim_topo_of; lia].
    eapply Nat.lt_le_trans; [exact Hk|].
    pose proof (tsize_le_max T cc) as M. unfold T in M at 1 3. rewrite tdim_topo_of in M. apply M. lia. }
  rewrite EF. cbn [obind]. eexists. split; [reflexivity|].
  set (s := mkInfo off (GT2 sid (dim - c)) (map Some L) fl).
  assert (NUM' : forall cc, cc <= dim -> info_numbers s cc = Some (want T f cc)) by exact NUM.
  constructor; fold T.
  - reflexivity.
  - intros cc H. specialize (NUM' cc H). unfold info_numbers in NUM'.
    apply omap_nth in NUM'. destruct NUM' as [Q _]. rewrite seq_length in Q. symmetry. exact Q.
  - exact NUM'.
  - intros ii cc H Hii. specialize (NUM' cc H). unfold info_numbers in NUM'.
    apply omap_nth in NUM'. destruct NUM' as [Q N]. rewrite seq_length in Q.
    rewrite <- (N ii (nth cc (offset_ s) 0 + ii)); [reflexivity|].
    rewrite (nth_error_nth' _ 0) by (rewrite seq_length; lia). rewrite seq_nth by lia. reflexivity.
  - intros cc k H Hk. unfold info_contains. unfold s at 1. cbn [containsSubentity_].
    apply omap_nth in EF. destruct EF as [LF NF].
    specialize (NF cc cc). rewrite NUM in NF by lia. cbn [obind] in NF.
    destruct (fill_flags_spec (want T f cc) (repeat false (maxSubEntityCount dim))) as (f' & Q & LQ & NQ).
    { intros k' Hk'. rewrite repeat_length.
      apply want_range in Hk'; [|assumption|unfold T; rewrite tdim_topo_of; lia].
      eapply Nat.lt_le_trans; [exact Hk'|].
      pose proof (tsize_le_max T cc) as M. unfold T in M at 1 3. rewrite tdim_topo_of in M. apply M. lia. }
    rewrite Q in NF.
    assert (NFL : nth cc fl [] = f').
    { apply nth_error_nth. symmetry. apply NF. rewrite (nth_error_nth' _ 0) by (rewrite seq_length; lia).
        rewrite seq_nth by lia. reflexivity. }
    rewrite NFL, NQ. destruct (existsb _ _); [reflexivity|].
    rewrite (nth_error_nth' _ false) by (rewrite repeat_length; lia).
    now rewrite nth_repeat.
Qed.

(** ** The reference element *)

Record re_ok (id : N) (dim : nat) (r : RefElement) : Prop := {
  ok_re_size : forall c, c <= dim -> re_size r c = tsize (topo_of id dim) c;
  ok_re_info : forall f, is_face (topo_of id dim) f ->
    exists s, re_info r (fidx (topo_of id dim) f) (fcod (topo_of id dim) f) = Some s
              /\ info_ok id dim f s }.

Lemma re_infos_spec id dim : (id < bit dim)%N ->
  exists r, re_infos id dim = Some r /\ re_ok id dim r.
Proof.
  intros Hid. set (T := topo_of id dim).
  assert (H1 : forall c, c <= dim -> exists l,
    omap (info_initialize id dim c) (seq 0 (size id dim c)) = Some l).
  { intros c Hc. apply omap_Some. intros i Hi. apply in_seq in Hi.
    rewrite size_tsize in Hi by assumption. fold T in Hi.
    destruct (nth_face_ex T c i) as (f & _ & Hf & <- & <-); [lia|].
    destruct (info_initialize_spec dim id f Hid Hf) as (s & E & _). eauto. }
  unfold re_infos.
  destruct (omap_Some (fun codim => omap (info_initialize id dim codim) (seq 0 (size id dim codim)))
             (seq 0 (S dim))) as [r Hr].
  { intros c Hc. apply in_seq in Hc. apply H1. lia. }
  exists r. split; [assumption|].
  apply omap_nth in Hr. destruct Hr as [Lr Nr].
  assert (RN : forall c, c <= dim ->
     omap (info_initialize id dim c) (seq 0 (size id dim c)) = Some (nth c r [])).
  { intros c Hc. rewrite (Nr c c).
    - rewrite seq_length in Lr. apply nth_error_nth'. lia.
    - rewrite (nth_error_nth' _ 0) by (rewrite seq_length; lia). rewrite seq_nth by lia. reflexivity. }
  constructor.
  - intros c Hc. unfold re_size. specialize (RN c Hc). apply omap_nth in RN. destruct RN as [L _].
    rewrite seq_length, size_tsize in L by assumption. exact L.
  - intros f Hf. fold T in Hf |- *. pose proof (fcod_le T f Hf) as Hc. unfold T in Hc at 2.
    rewrite tdim_topo_of in Hc.
    destruct (info_initialize_spec dim id f Hid Hf) as (s & E & OK). fold T in E.
    exists s. split; [|assumption]. unfold re_info. specialize (RN _ Hc). apply omap_nth in RN.
    destruct RN as [_ N]. rewrite <- (N (fidx T f) (fidx T f)); [assumption|].
    pose proof (fidx_lt T f Hf) as L.
    rewrite (nth_error_nth' _ 0); rewrite ?seq_length, ?size_tsize by assumption; fold T; [|assumption].
    now rewrite seq_nth.
Qed.

(** every (i,c) in range is a face *)
Lemma re_face id dim r i c : re_ok id dim r -> c <= dim -> i < re_size r c ->
  exists f, is_face (topo_of id dim) f /\ fcod (topo_of id dim) f = c /\ fidx (topo_of id dim) f = i
            /\ exists s, re_info r i c = Some s /\ info_ok id dim f s.
Proof.
  intros OK Hc Hi. rewrite (ok_re_size _ _ _ OK) in Hi by assumption.
  destruct (nth_face_ex _ _ _ Hi) as (f & _ & Hf & Ec & Ei). exists f. repeat split; auto.
  rewrite <- Ec, <- Ei. now apply ok_re_info.
Qed.
