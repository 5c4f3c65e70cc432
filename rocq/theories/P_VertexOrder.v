(** Ranks. *)
From Coq Require Import NArith ZArith PeanoNat Bool List Permutation Lia.
From Verif Require Import M_Type M_RefTopo P_Topo P_RefTopo2 M_VertexOrder S_VertexOrder.
Import ListNotations.

Definition rk {A} (ltb : A -> A -> bool) (l : list A) (x : A) : nat := length (filter (fun v => ltb v x) l).

Lemma store_app : forall done x rest v, store (done ++ x :: rest) (length done) v = Some (done ++ v :: rest).
Proof. induction done as [|y done IH]; intros; cbn; [reflexivity|]. rewrite IH. reflexivity. Qed.
Lemma store_end : forall out v, store out (length out) v = None.
Proof. induction out as [|y out IH]; intros; cbn; [reflexivity|]. rewrite IH. reflexivity. Qed.
Lemma filter_len_le : forall {A} (f : A -> bool) l, length (filter f l) <= length l.
Proof. intros A f l. induction l as [|x l IH]; cbn; [lia|]. destruct (f x); cbn; lia. Qed.

Lemma skipn_cons_nth : forall {A} (l : list A) k x, nth_error l k = Some x -> skipn k l = x :: skipn (S k) l.
Proof. intros A l. induction l as [|y l IH]; intros [|k] x E; cbn in *; try discriminate; [congruence|]. rewrite (IH k x E). reflexivity. Qed.

Section Generic.
Variables (It A : Type) (deref : It -> option A) (next : It -> It) (eqb : It -> It -> bool) (ltb : A -> A -> bool).
Variables (l : list A) (at_ : nat -> It).
Hypothesis Hd : forall k, k < length l -> deref (at_ k) = nth_error l k.
Hypothesis Hn : forall k, k < length l -> next (at_ k) = at_ (S k).
Hypothesis He : forall k, k <= length l -> eqb (at_ k) (at_ (length l)) = (k =? length l).

Lemma count_spec : forall p m fuel k, k + m = length l -> m <= fuel ->
  count_if It A deref next eqb fuel p (at_ k) (at_ (length l)) = Some (length (filter p (skipn k l))).
Proof.
  intros p. induction m as [|m IH]; intros fuel k K F.
  - assert (k = length l) by lia. subst k. rewrite skipn_all. destruct fuel; cbn; rewrite He, Nat.eqb_refl by lia; reflexivity.
  - destruct fuel as [|fuel]; [lia|]. cbn. rewrite He by lia. destruct (Nat.eqb_spec k (length l)); [lia|].
    rewrite Hd by lia. destruct (nth_error l k) as [x|] eqn:E; [|apply nth_error_None in E; lia]. cbn [obind].
    rewrite Hn, IH by lia. rewrite (skipn_cons_nth l k x E). cbn [option_map filter]. destruct (p x); reflexivity.
Qed.
Lemma loop_ok : forall m fuel rounds k out done, k + m = length l -> m <= rounds -> length l <= fuel -> length done = k -> m <= length out ->
  reduceLoop It A deref next eqb ltb fuel rounds (at_ 0) (at_ (length l)) (at_ k) (done ++ out) k
  = Some (done ++ map (rk ltb l) (skipn k l) ++ skipn m out).
Proof.
  induction m as [|m IH]; intros fuel rounds k out done K R F L O.
  - assert (k = length l) by lia. subst k. rewrite H, skipn_all. destruct rounds; cbn [reduceLoop]; rewrite He, Nat.eqb_refl by lia; reflexivity.
  - destruct rounds as [|rounds]; [lia|]. cbn [reduceLoop]. rewrite He by lia. destruct (Nat.eqb_spec k (length l)); [lia|].
    rewrite Hd by lia. destruct (nth_error l k) as [x|] eqn:E; [|apply nth_error_None in E; lia]. cbn [obind].
    rewrite (count_spec _ (length l)) by lia. cbn [obind skipn]. destruct out as [|o out]; [cbn in O; lia|].
    rewrite <- L, store_app, L. cbn [obind]. rewrite Hn by lia.
    replace (done ++ length (filter (fun v => ltb v x) l) :: out) with ((done ++ [rk ltb l x]) ++ out) by (rewrite <- app_assoc; reflexivity).
    rewrite (IH fuel rounds (S k) out) by (try rewrite app_length; cbn in *; lia).
    rewrite (skipn_cons_nth l k x E). rewrite <- app_assoc. reflexivity.
Qed.
Lemma loop_over : forall m fuel rounds k out done, k + m = length l -> m <= rounds -> length l <= fuel -> length done = k -> length out < m ->
  reduceLoop It A deref next eqb ltb fuel rounds (at_ 0) (at_ (length l)) (at_ k) (done ++ out) k = None.
Proof.
  induction m as [|m IH]; intros fuel rounds k out done K R F L O; [lia|].
  destruct rounds as [|rounds]; [lia|]. cbn [reduceLoop]. rewrite He by lia. destruct (Nat.eqb_spec k (length l)); [lia|].
  rewrite Hd by lia. destruct (nth_error l k) as [x|] eqn:E; [|apply nth_error_None in E; lia]. cbn [obind].
  rewrite (count_spec _ (length l)) by lia. cbn [obind skipn]. destruct out as [|o out].
  - rewrite app_nil_r, <- L, store_end. reflexivity.
  - rewrite <- L, store_app, L. cbn [obind]. rewrite Hn by lia.
    replace (done ++ length (filter (fun v => ltb v x) l) :: out) with ((done ++ [rk ltb l x]) ++ out) by (rewrite <- app_assoc; reflexivity).
    apply IH; try rewrite app_length; cbn in *; lia.
Qed.
Lemma reduce_ok : forall fuel out, length l <= fuel -> length l <= length out ->
  reduceOrder It A deref next eqb ltb fuel (at_ 0) (at_ (length l)) out = Some (map (rk ltb l) l ++ skipn (length l) out).
Proof. intros fuel out F O. unfold reduceOrder. exact (loop_ok (length l) fuel fuel 0 out [] ltac:(lia) F F eq_refl O). Qed.
Lemma reduce_over : forall fuel out, length l <= fuel -> length out < length l ->
  reduceOrder It A deref next eqb ltb fuel (at_ 0) (at_ (length l)) out = None.
Proof. intros fuel out F O. unfold reduceOrder. exact (loop_over (length l) fuel fuel 0 out [] ltac:(lia) F F eq_refl O). Qed.
End Generic.

Lemma list_ok : forall {A} (ltb : A -> A -> bool) fuel l out, length l <= fuel -> length l <= length out ->
  reduceList ltb fuel l out = Some (map (rk ltb l) l ++ skipn (length l) out).
Proof. intros A ltb fuel l out F O. unfold reduceList. apply (reduce_ok nat A (nth_error l) S Nat.eqb ltb l (fun k => k)); intros; auto. Qed.
Lemma list_over : forall {A} (ltb : A -> A -> bool) fuel l out, length l <= fuel -> length out < length l -> reduceList ltb fuel l out = None.
Proof. intros A ltb fuel l out F O. unfold reduceList. apply (reduce_over nat A (nth_error l) S Nat.eqb ltb l (fun k => k)); intros; auto. Qed.

(** ** ranks *)
Section Rank.
Variables (A : Type) (ltb : A -> A -> bool).
Hypothesis T : strictTotal ltb.

Lemma filter_mono : forall (f g : A -> bool) l, (forall x, In x l -> f x = true -> g x = true) -> length (filter f l) <= length (filter g l).
Proof.
  intros f g l. induction l as [|x l IH]; intros H; cbn; [lia|].
  assert (length (filter f l) <= length (filter g l)) by (apply IH; intros; apply H; [right|]; assumption).
  specialize (H x (or_introl eq_refl)). destruct (f x); [rewrite H by reflexivity; cbn; lia|destruct (g x); cbn; lia].
Qed.
Lemma filter_strict : forall (f g : A -> bool) l y, (forall x, In x l -> f x = true -> g x = true) -> In y l -> f y = false -> g y = true ->
  length (filter f l) < length (filter g l).
Proof.
  intros f g l. induction l as [|x l IH]; intros y H I F G; [destruct I|].
  assert (M : length (filter f l) <= length (filter g l)) by (apply filter_mono; intros; apply H; [right|]; assumption).
  cbn. destruct I as [->|I].
  - rewrite F, G. cbn. lia.
  - assert (length (filter f l) < length (filter g l)) by (apply (IH y); auto; intros; apply H; [right|]; assumption).
    specialize (H x (or_introl eq_refl)). destruct (f x); [rewrite H by reflexivity; cbn; lia|destruct (g x); cbn; lia].
Qed.
Lemma rk_mono : forall l x y, In x l -> ltb x y = true -> rk ltb l x < rk ltb l y.
Proof.
  destruct T as (T1 & T2 & T3). intros l x y I L. apply (filter_strict _ _ _ x); auto. intros v _ V. exact (T2 v x y V L).
Qed.
Lemma rk_iff : forall l x y, In x l -> In y l -> (rk ltb l x <? rk ltb l y) = ltb x y.
Proof.
  intros l x y Ix Iy. pose proof T as (T1 & T2 & T3). destruct (ltb x y) eqn:E.
  - apply Nat.ltb_lt. apply rk_mono; assumption.
  - apply Nat.ltb_ge. destruct (T3 x y) as [L|[->|L]]; [congruence|lia|]. pose proof (rk_mono l y x Iy L). lia.
Qed.
Lemma rk_lt : forall l x, In x l -> rk ltb l x < length l.
Proof.
  intros l x I. destruct T as (T1 & _ & _). unfold rk.
  assert (length (filter (fun v => ltb v x) l) < length (filter (fun _ => true) l)) by (apply (filter_strict _ _ _ x); auto).
  pose proof (filter_len_le (fun _ => true) l). lia.
Qed.
Lemma rk_inj : forall l x y, In x l -> In y l -> rk ltb l x = rk ltb l y -> x = y.
Proof.
  intros l x y Ix Iy E. destruct T as (T1 & T2 & T3). destruct (T3 x y) as [L|[L|L]]; [|assumption|].
  - pose proof (rk_mono l x y Ix L). lia.
  - pose proof (rk_mono l y x Iy L). lia.
Qed.
Lemma rk_perm : forall l, NoDup l -> Permutation (map (rk ltb l) l) (seq 0 (length l)).
Proof.
  intros l N. apply NoDup_Permutation_bis.
  - assert (Q : forall m, incl m l -> NoDup m -> NoDup (map (rk ltb l) m)).
    { intros m I D. induction D as [|x m Nx D IH]; cbn; constructor; [|apply IH; intros v Hv; apply I; right; assumption].
      intros H. apply in_map_iff in H. destruct H as (y & E & Iy). apply rk_inj in E; [subst y; contradiction|apply I; right; assumption|apply I; left; reflexivity]. }
    apply Q; [apply incl_refl|assumption].
  - rewrite map_length, seq_length. lia.
  - intros k Hk. apply in_map_iff in Hk. destruct Hk as (x & <- & I). apply in_seq. pose proof (rk_lt l x I). lia.
Qed.
End Rank.

(** the ranks depend on the comparisons only *)
Lemma rk_same : forall {A B} (ltA : A -> A -> bool) (ltB : B -> B -> bool) l m a b,
  length l = length m -> (forall i x y, nth_error l i = Some x -> nth_error m i = Some y -> ltA x a = ltB y b) -> rk ltA l a = rk ltB m b.
Proof.
  intros A B ltA ltB l. induction l as [|x l IH]; intros [|y m] a b L H; cbn in L; try lia; [reflexivity|].
  unfold rk in *. cbn. rewrite (H 0 x y eq_refl eq_refl). specialize (IH m a b ltac:(lia) (fun i => H (S i))).
  destruct (ltB y b); cbn; lia.
Qed.
Lemma map_rk_same : forall {A B} (ltA : A -> A -> bool) (ltB : B -> B -> bool) l m, sameOrder ltA ltB l m -> map (rk ltA l) l = map (rk ltB m) m.
Proof.
  intros A B ltA ltB l m [L H]. apply nth_error_ext'. intros i. rewrite !nth_error_map.
  destruct (nth_error l i) as [a|] eqn:Ea.
  - assert (Hi : i < length l) by (apply nth_error_Some; congruence). destruct (nth_error m i) as [b|] eqn:Eb; [|apply nth_error_None in Eb; lia].
    cbn. f_equal. apply rk_same; [assumption|]. intros j x y X Y. exact (H j i x a y b X Ea Y Eb).
  - apply nth_error_None in Ea. destruct (nth_error m i) eqn:Eb; [|reflexivity]. assert (i < length m) by (apply nth_error_Some; congruence). lia.
Qed.
Lemma same_ranks : forall {A} (ltb : A -> A -> bool) l, strictTotal ltb -> sameOrder ltb Nat.ltb l (map (rk ltb l) l).
Proof.
  intros A ltb l T. split; [symmetry; apply map_length|]. intros i j a a' b b' Ha Ha' Hb Hb'.
  rewrite nth_error_map in Hb, Hb'. rewrite Ha in Hb. rewrite Ha' in Hb'. injection Hb as <-. injection Hb' as <-.
  symmetry. apply rk_iff; [assumption|eapply nth_error_In; eassumption..].
Qed.
Lemma nat_strict : strictTotal Nat.ltb.
Proof.
  split; [apply Nat.ltb_irrefl|]. split.
  - intros x y z. rewrite !Nat.ltb_lt. lia.
  - intros x y. rewrite !Nat.ltb_lt. lia.
Qed.
(** a permutation of 0..n-1 is its own rank sequence *)
Lemma rk_seq : forall n k, k <= n -> rk Nat.ltb (seq 0 n) k = k.
Proof.
  induction n as [|n IH]; intros k K; [assert (k = 0) by lia; subst; reflexivity|]. unfold rk in *. rewrite seq_S, filter_app, app_length. cbn [filter plus].
  destruct (Nat.ltb_spec n k) as [L|L]; cbn [length].
  - assert (k = S n) by lia. subst k.
    assert (forall m s, s + m <= S n -> length (filter (fun v => v <? S n) (seq s m)) = m) as Q.
    { induction m as [|m IHm]; intros s Hs; cbn [seq filter length]; [reflexivity|]. destruct (Nat.ltb_spec s (S n)); [|lia]. cbn [length]. rewrite IHm by lia. reflexivity. }
    rewrite Q by lia. lia.
  - rewrite IH by lia. lia.
Qed.
Lemma rk_permuted : forall l k, Permutation l (seq 0 (length l)) -> k <= length l -> rk Nat.ltb l k = k.
Proof.
  intros l k P K. rewrite <- (rk_seq (length l) k K) at 2. unfold rk.
  assert (Q : forall m m' : list nat, Permutation m m' -> length (filter (fun v => v <? k) m) = length (filter (fun v => v <? k) m')).
  { intros m m' H. induction H; cbn [filter]; [reflexivity| | |congruence].
    - destruct (x <? k); cbn [length]; lia.
    - destruct (x <? k), (y <? k); cbn [length]; lia. }
  apply Q. assumption.
Qed.
Lemma map_rk_permuted : forall l, Permutation l (seq 0 (length l)) -> map (rk Nat.ltb l) l = l.
Proof.
  intros l P. rewrite <- (map_id l) at 3. apply map_ext_in. intros k I. apply rk_permuted; [assumption|].
  apply (Permutation_in _ P) in I. apply in_seq in I. lia.
Qed.
