(** Facts about the abstract face lattice. *)
From Coq Require Import NArith PeanoNat Bool List Lia Sorted.
From Verif Require Import S_Topo.
Import ListNotations.

Definition tsize (T : Topo) (c : nat) : nat := length (faces T c).

Lemma tsize_Pri0 b : tsize (Pri b) 0 = tsize b 0.
Proof. unfold tsize. simpl. now rewrite app_nil_r, map_length. Qed.
Lemma tsize_PriS b c : tsize (Pri b) (S c) = tsize b (S c) + 2 * tsize b c.
Proof. unfold tsize. simpl. rewrite !app_length, !map_length. lia. Qed.
Lemma tsize_Pyr0 b : tsize (Pyr b) 0 = tsize b 0.
Proof. unfold tsize. simpl. now rewrite app_nil_r, map_length. Qed.
Lemma tsize_PyrS b c :
  tsize (Pyr b) (S c) = tsize b c + tsize b (S c) + (if S c =? S (tdim b) then 1 else 0).
Proof.
  unfold tsize. cbn [faces]. rewrite !app_length, !map_length.
  destruct (S c =? S (tdim b)); simpl; lia.
Qed.

Lemma tsize_0 T : tsize T 0 = 1.
Proof. induction T; [reflexivity|now rewrite tsize_Pri0|now rewrite tsize_Pyr0]. Qed.

Lemma tsize_big T : forall c, tdim T < c -> tsize T c = 0.
Proof.
  induction T as [|b IH|b IH]; intros c Hc.
  - destruct c; [simpl in Hc; lia|reflexivity].
  - destruct c; [lia|]. simpl in Hc. rewrite tsize_PriS, !IH by lia. reflexivity.
  - destruct c; [lia|]. simpl in Hc. rewrite tsize_PyrS, !IH by lia.
    destruct (Nat.eqb_spec (S c) (S (tdim b))); lia.
Qed.

Lemma tsize_pos T : forall c, c <= tdim T -> 0 < tsize T c.
Proof.
  induction T as [|b IH|b IH]; intros c Hc; simpl in Hc.
  - replace c with 0 by lia. rewrite tsize_0. lia.
  - destruct c; [rewrite tsize_0; lia|]. rewrite tsize_PriS.
    specialize (IH c ltac:(lia)). lia.
  - destruct c; [rewrite tsize_0; lia|]. rewrite tsize_PyrS.
    specialize (IH c ltac:(lia)). lia.
Qed.

(** ** Membership *)

Lemma in_faces T : forall c f, In f (faces T c) <-> is_face T f /\ fcod T f = c.
Proof.
  induction T as [|b IH|b IH]; intros c f; cbn [faces].
  - destruct c; destruct f; simpl; intuition (try discriminate; auto).
  - rewrite in_app_iff, in_map_iff.
    assert (E : In f (match c with 0 => [] | S c' => map FBot (faces b c') ++ map FTop (faces b c') end)
                <-> exists c' g, c = S c' /\ (f = FBot g \/ f = FTop g) /\ In g (faces b c')).
    { destruct c.
      - simpl. split; [easy|]. intros (? & ? & ? & _); discriminate.
      - rewrite in_app_iff, !in_map_iff. split.
        + intros [(g & <- & H)|(g & <- & H)]; exists c, g; auto.
        + intros (c' & g & Ec & [->| ->] & H); injection Ec as <-; [left|right]; eauto. }
    rewrite E. split.
    + intros [(g & <- & H)|(c' & g & -> & [->| ->] & H)]; apply IH in H; simpl; intuition.
    + destruct f; simpl; intros [H1 H2]; try contradiction.
      * left. exists f. split; auto. apply IH. auto.
      * right. destruct c; [discriminate|]. exists c, f. repeat split; auto. apply IH. auto.
      * right. destruct c; [discriminate|]. exists c, f. repeat split; auto. apply IH. auto.
  - rewrite !in_app_iff, in_map_iff.
    assert (E : In f (match c with 0 => [] | S c' => map FBase (faces b c') end)
                <-> exists c' g, c = S c' /\ f = FBase g /\ In g (faces b c')).
    { destruct c.
      - simpl. split; [easy|]. intros (? & ? & ? & _); discriminate.
      - rewrite !in_map_iff. split.
        + intros (g & <- & H); exists c, g; auto.
        + intros (c' & g & Ec & -> & H); injection Ec as <-; eauto. }
    assert (A : In f (if c =? S (tdim b) then [FApex] else []) <-> f = FApex /\ c = S (tdim b)).
    { destruct (Nat.eqb_spec c (S (tdim b))); simpl; intuition. }
    rewrite E, A. split.
    + intros [(c' & g & -> & -> & H)|[(g & <- & H)|[-> ->]]]; try (apply IH in H); simpl; intuition.
    + destruct f; simpl; intros [H1 H2]; try contradiction.
      * left. destruct c; [discriminate|]. exists c, f. repeat split; auto. apply IH. auto.
      * right; left. exists f. split; auto. apply IH; auto.
      * right; right. auto.
Qed.

Lemma NoDup_app_intro {A} (l r : list A) :
  NoDup l -> NoDup r -> (forall x, In x l -> ~ In x r) -> NoDup (l ++ r).
Proof.
  induction l as [|a l IH]; intros Hl Hr Hd; simpl; [assumption|].
  inversion Hl; subst. constructor.
  - rewrite in_app_iff. intros [?|?]; [contradiction|]. apply (Hd a); [now left|assumption].
  - apply IH; auto. intros x Hx. apply Hd. now right.
Qed.

Lemma NoDup_map_inj {A B} (f : A -> B) l :
  (forall x y, f x = f y -> x = y) -> NoDup l -> NoDup (map f l).
Proof.
  intros Hf. induction 1; simpl; constructor; auto.
  rewrite in_map_iff. intros (y & E & Hy). apply Hf in E. now subst.
Qed.

Lemma faces_NoDup T : forall c, NoDup (faces T c).
Proof.
  induction T as [|b IH|b IH]; intros c; cbn [faces].
  - destruct c; repeat constructor. auto.
  - apply NoDup_app_intro.
    + apply NoDup_map_inj; auto. congruence.
    + destruct c; [constructor|]. apply NoDup_app_intro; try (apply NoDup_map_inj; auto; congruence).
      intros x. rewrite !in_map_iff. intros (g & <- & _) (h & E & _). discriminate.
    + intros x. rewrite in_map_iff. intros (g & <- & _). destruct c; [easy|].
      rewrite in_app_iff, !in_map_iff. intros [(h & E & _)|(h & E & _)]; discriminate.
  - apply NoDup_app_intro.
    + destruct c; [constructor|]. apply NoDup_map_inj; auto; congruence.
    + apply NoDup_app_intro.
      * apply NoDup_map_inj; auto; congruence.
      * destruct (c =? S (tdim b)); repeat constructor. auto.
      * intros x. rewrite in_map_iff. intros (g & <- & _).
        destruct (c =? S (tdim b)); simpl; [|easy]. intros [E|[]]; discriminate.
    + intros x. destruct c; [easy|]. rewrite in_map_iff. intros (g & <- & _).
      rewrite in_app_iff, in_map_iff. intros [(h & E & _)|H]; [discriminate|].
      destruct (S c =? S (tdim b)); simpl in H; [destruct H as [E|[]]; discriminate|easy].
Qed.

Lemma fcod_le T : forall f, is_face T f -> fcod T f <= tdim T.
Proof.
  induction T as [|b IH|b IH]; intros f; destruct f; simpl; try easy; intros H;
    try (specialize (IH _ H)); lia.
Qed.

Lemma tdim_ftype T : forall f, is_face T f -> tdim (ftype T f) = tdim T - fcod T f.
Proof.
  induction T as [|b IH|b IH]; intros f; destruct f; cbn [tdim ftype fcod is_face]; try easy; intros H;
    try (pose proof (fcod_le b _ H); specialize (IH _ H)); lia.
Qed.

(** ** Embedding *)

Lemma emb_face T : forall f g, is_face T f -> is_face (ftype T f) g ->
  is_face T (emb f g) /\ fcod T (emb f g) = fcod T f + fcod (ftype T f) g
  /\ ftype T (emb f g) = ftype (ftype T f) g.
Proof.
  induction T as [|b IH|b IH]; intros f g; destruct f; simpl; try easy; intros Hf.
  - destruct g; simpl; try easy; intros Hg; destruct (IH _ _ Hf Hg) as (A & B & C);
      repeat split; auto; try congruence; lia.
  - intros Hg; destruct (IH _ _ Hf Hg) as (A & B & C); repeat split; auto; lia.
  - intros Hg; destruct (IH _ _ Hf Hg) as (A & B & C); repeat split; auto; lia.
  - intros Hg; destruct (IH _ _ Hf Hg) as (A & B & C); repeat split; auto; lia.
  - destruct g; simpl; try easy.
    + intros Hg; destruct (IH _ _ Hf Hg) as (A & B & C); repeat split; auto; lia.
    + intros Hg; destruct (IH _ _ Hf Hg) as (A & B & C); repeat split; auto; try congruence; lia.
    + intros _. rewrite tdim_ftype by assumption. pose proof (fcod_le b f Hf). repeat split; lia.
  - destruct g; simpl; try easy. intros _. repeat split; lia.
Qed.

Lemma emb_assoc f : forall g h, emb f (emb g h) = emb (emb f g) h.
Proof.
  induction f as [|f IH|f IH|f IH|f IH|f IH|]; intros g h; simpl; try reflexivity;
    try (now rewrite IH);
    destruct g; simpl; try reflexivity; try (now rewrite IH);
    destruct h; simpl; try reflexivity; now rewrite IH.
Qed.

(** the whole polytope *)
Fixpoint whole (T : Topo) : Face :=
  match T with Pt => FPt | Pri b => FSide (whole b) | Pyr b => FCone (whole b) end.

Lemma faces_0 T : faces T 0 = [whole T].
Proof.
  induction T as [|b IH|b IH]; cbn [faces whole]; [reflexivity| |]; rewrite IH; reflexivity.
Qed.
Lemma whole_face T : is_face T (whole T) /\ fcod T (whole T) = 0 /\ ftype T (whole T) = T.
Proof. induction T as [|b IH|b IH]; simpl; intuition congruence. Qed.
Lemma emb_whole T : forall g, is_face T g -> emb (whole T) g = g.
Proof.
  induction T as [|b IH|b IH]; intros g; destruct g; simpl; try easy; intros H; now rewrite IH.
Qed.
Lemma emb_whole_r T : forall f, is_face T f -> emb f (whole (ftype T f)) = f.
Proof.
  induction T as [|b IH|b IH]; intros f; destruct f; simpl; try easy; intros H; now rewrite IH.
Qed.
Lemma fcod_0_whole T : forall f, is_face T f -> fcod T f = 0 -> f = whole T.
Proof.
  intros f H E. assert (X : In f (faces T 0)) by (apply in_faces; auto).
  rewrite faces_0 in X. destruct X as [X|[]]. auto.
Qed.

(** ** Position of a face in the list *)

Fixpoint fidx (T : Topo) (f : Face) : nat :=
  match T, f with
  | Pri b, FSide f => fidx b f
  | Pri b, FBot f => tsize b (S (fcod b f)) + fidx b f
  | Pri b, FTop f => tsize b (S (fcod b f)) + tsize b (fcod b f) + fidx b f
  | Pyr b, FBase f => fidx b f
  | Pyr b, FCone f => match fcod b f with 0 => 0 | S c => tsize b c end + fidx b f
  | Pyr b, FApex => tsize b (tdim b)
  | _, _ => 0
  end.

Lemma fidx_nth T : forall f, is_face T f -> nth_error (faces T (fcod T f)) (fidx T f) = Some f.
Proof.
  assert (L : forall T f, nth_error (faces T (fcod T f)) (fidx T f) = Some f ->
                          fidx T f < tsize T (fcod T f)).
  { intros. apply nth_error_Some. congruence. }
  induction T as [|b IH|b IH]; intros f; destruct f; try easy; intros H;
    cbn [is_face] in H; cbn [faces fcod fidx].
  - pose proof (IH _ H) as E. pose proof (L _ _ E). rewrite nth_error_app1 by (now rewrite map_length).
    now apply map_nth_error.
  - pose proof (IH _ H) as E. pose proof (L _ _ E).
    rewrite nth_error_app2; rewrite map_length; fold (tsize b (S (fcod b f))); [|lia].
    rewrite nth_error_app1 by (rewrite map_length; fold (tsize b (fcod b f)); lia).
    replace (_ + _ - _) with (fidx b f) by lia. now apply map_nth_error.
  - pose proof (IH _ H) as E. pose proof (L _ _ E).
    rewrite nth_error_app2; rewrite map_length; fold (tsize b (S (fcod b f))); [|lia].
    rewrite nth_error_app2; rewrite map_length; fold (tsize b (fcod b f)); [|lia].
    replace (_ + _ + _ - _ - _) with (fidx b f) by lia. now apply map_nth_error.
  - pose proof (IH _ H) as E. pose proof (L _ _ E).
    rewrite nth_error_app1 by (now rewrite map_length). now apply map_nth_error.
  - pose proof (IH _ H) as E. pose proof (L _ _ E).
    rewrite nth_error_app2.
    2:{ destruct (fcod b f); [simpl; lia|]. rewrite map_length. fold (tsize b n). lia. }
    rewrite nth_error_app1.
    2:{ rewrite map_length. fold (tsize b (fcod b f)). destruct (fcod b f); [simpl; lia|].
        rewrite map_length. fold (tsize b n). lia. }
    replace (_ - _) with (fidx b f).
    + now apply map_nth_error.
    + destruct (fcod b f); [simpl; lia|]. rewrite map_length. fold (tsize b n). lia.
  - rewrite Nat.eqb_refl. rewrite nth_error_app2 by (rewrite map_length; unfold tsize; lia).
    rewrite map_length. fold (tsize b (tdim b)). rewrite Nat.sub_diag.
    assert (Z : faces b (S (tdim b)) = []).
    { apply length_zero_iff_nil. apply (tsize_big b). lia. }
    rewrite Z. reflexivity.
Qed.

Lemma fidx_lt T f : is_face T f -> fidx T f < tsize T (fcod T f).
Proof. intros H. apply nth_error_Some. rewrite fidx_nth by assumption. discriminate. Qed.

Lemma nth_face T c i f : nth_error (faces T c) i = Some f ->
  is_face T f /\ fcod T f = c /\ fidx T f = i.
Proof.
  intros H. pose proof (nth_error_In _ _ H) as I. apply in_faces in I. destruct I as [I <-].
  repeat split; auto.
  apply (NoDup_nth_error (faces T (fcod T f))); [apply faces_NoDup|now apply fidx_lt|].
  now rewrite fidx_nth.
Qed.

Lemma fidx_inj T f g : is_face T f -> is_face T g -> fcod T f = fcod T g ->
  fidx T f = fidx T g -> f = g.
Proof.
  intros Hf Hg Hc Hi. pose proof (fidx_nth T f Hf) as A. pose proof (fidx_nth T g Hg) as B.
  rewrite Hc, Hi in A. congruence.
Qed.

Lemma nth_face_ex T c i : i < tsize T c ->
  exists f, nth_error (faces T c) i = Some f /\ is_face T f /\ fcod T f = c /\ fidx T f = i.
Proof.
  intros H. destruct (nth_error (faces T c) i) as [f|] eqn:E.
  - exists f. split; [reflexivity|]. now apply nth_face.
  - apply nth_error_None in E. unfold tsize in H. lia.
Qed.

(** ** Numbering of the subfaces of a face *)

Definition subnums (T : Topo) (f : Face) (sc : nat) : list nat :=
  map (fun g => fidx T (emb f g)) (faces (ftype T f) sc).

Lemma subnums_length T f sc : length (subnums T f sc) = tsize (ftype T f) sc.
Proof. unfold subnums. now rewrite map_length. Qed.

Lemma subnums_range T f sc k : is_face T f -> In k (subnums T f sc) ->
  k < tsize T (fcod T f + sc).
Proof.
  intros Hf. unfold subnums. rewrite in_map_iff. intros (g & <- & Hg).
  apply in_faces in Hg. destruct Hg as [Hg <-]. destruct (emb_face T f g Hf Hg) as (A & B & _).
  rewrite <- B. now apply fidx_lt.
Qed.

Lemma StronglySorted_app (l r : list nat) :
  StronglySorted lt l -> StronglySorted lt r ->
  (forall x y, In x l -> In y r -> x < y) -> StronglySorted lt (l ++ r).
Proof.
  induction 1 as [|a l Hl IH Ha]; intros Hr Hd; simpl; [assumption|].
  constructor.
  - apply IH; auto. intros x y Hx Hy. apply Hd; simpl; auto.
  - apply Forall_app. split; [assumption|]. apply Forall_forall. intros y Hy. apply Hd; simpl; auto.
Qed.

Lemma StronglySorted_map_add (l : list nat) k :
  StronglySorted lt l -> StronglySorted lt (map (fun x => k + x) l).
Proof.
  induction 1 as [|a l Hl IH Ha]; simpl; constructor; auto.
  rewrite Forall_map. eapply Forall_impl; [|exact Ha]. simpl. intros. lia.
Qed.

(** block decompositions *)
Lemma subnums_Side0 b f : subnums (Pri b) (FSide f) 0 = subnums b f 0.
Proof. unfold subnums. cbn [ftype faces]. rewrite app_nil_r, map_map. reflexivity. Qed.

Lemma subnums_SideS b f sc : is_face b f ->
  subnums (Pri b) (FSide f) (S sc)
  = subnums b f (S sc)
    ++ map (fun x => tsize b (S (fcod b f + sc)) + x) (subnums b f sc)
    ++ map (fun x => tsize b (S (fcod b f + sc)) + tsize b (fcod b f + sc) + x) (subnums b f sc).
Proof.
  intros Hf. unfold subnums. cbn [ftype faces]. rewrite !map_app, !map_map.
  f_equal. f_equal; apply map_ext_in; intros g Hg; apply in_faces in Hg;
    destruct Hg as [Hg <-]; cbn [emb fidx]; destruct (emb_face b f g Hf Hg) as (_ & E & _);
    rewrite E; reflexivity.
Qed.

Lemma subnums_Bot b f sc : is_face b f ->
  subnums (Pri b) (FBot f) sc
  = map (fun x => tsize b (S (fcod b f + sc)) + x) (subnums b f sc).
Proof.
  intros Hf. unfold subnums. cbn [ftype]. rewrite map_map. apply map_ext_in. intros g Hg.
  apply in_faces in Hg. destruct Hg as [Hg <-]. cbn [emb fidx].
  destruct (emb_face b f g Hf Hg) as (_ & E & _). now rewrite E.
Qed.
Lemma subnums_Top b f sc : is_face b f ->
  subnums (Pri b) (FTop f) sc
  = map (fun x => tsize b (S (fcod b f + sc)) + tsize b (fcod b f + sc) + x) (subnums b f sc).
Proof.
  intros Hf. unfold subnums. cbn [ftype]. rewrite map_map. apply map_ext_in. intros g Hg.
  apply in_faces in Hg. destruct Hg as [Hg <-]. cbn [emb fidx].
  destruct (emb_face b f g Hf Hg) as (_ & E & _). now rewrite E.
Qed.
Lemma subnums_Base b f sc : subnums (Pyr b) (FBase f) sc = subnums b f sc.
Proof. reflexivity. Qed.


Lemma subnums_ConeS b f sc : is_face b f ->
  subnums (Pyr b) (FCone f) (S sc)
  = subnums b f sc
    ++ map (fun x => tsize b (fcod b f + sc) + x) (subnums b f (S sc))
    ++ (if S sc =? S (tdim (ftype b f)) then [tsize b (tdim b)] else []).
Proof.
  intros Hf. unfold subnums. cbn [ftype faces]. rewrite !map_app, !map_map.
  f_equal. f_equal.
  - apply map_ext_in; intros g Hg; apply in_faces in Hg;
    destruct Hg as [Hg Ec]; cbn [emb fidx]; destruct (emb_face b f g Hf Hg) as (_ & E & _);
    rewrite E, Ec. rewrite Nat.add_succ_r. reflexivity.
  - destruct (S sc =? S (tdim (ftype b f))); reflexivity.
Qed.

Lemma subnums_0 T : forall f, is_face T f -> subnums T f 0 = [fidx T f].
Proof.
  intros f Hf. unfold subnums. rewrite faces_0. simpl. now rewrite emb_whole_r.
Qed.

Lemma subnums_sorted T : forall f sc, is_face T f -> StronglySorted lt (subnums T f sc).
Proof.
  induction T as [|b IH|b IH]; intros f sc Hf.
  - destruct f; try easy. unfold subnums. simpl. destruct sc; repeat constructor.
  - destruct f; try easy; cbn [is_face] in Hf.
    + destruct sc.
      * rewrite subnums_0 by assumption. repeat constructor.
      * rewrite subnums_SideS by assumption.
        assert (R : forall k s, In k (subnums b f s) -> k < tsize b (fcod b f + s))
          by (intros; now apply (subnums_range b f)).
        apply StronglySorted_app; [auto| |].
        -- apply StronglySorted_app; try (apply StronglySorted_map_add; auto).
           intros x y. rewrite !in_map_iff. intros (x' & <- & Hx) (y' & <- & Hy).
           apply R in Hx. lia.
        -- intros x y Hx. apply R in Hx. rewrite Nat.add_succ_r in Hx.
           rewrite in_app_iff, !in_map_iff. intros [(y' & <- & Hy)|(y' & <- & Hy)]; lia.
    + rewrite subnums_Bot by assumption. apply StronglySorted_map_add; auto.
    + rewrite subnums_Top by assumption. apply StronglySorted_map_add; auto.
  - destruct f; try easy; cbn [is_face] in Hf.
    + rewrite subnums_Base. auto.
    + destruct sc.
      * rewrite subnums_0 by assumption. repeat constructor.
      * rewrite subnums_ConeS by assumption.
        assert (R : forall k s, In k (subnums b f s) -> k < tsize b (fcod b f + s))
          by (intros; now apply (subnums_range b f)).
        apply StronglySorted_app; [auto| |].
        -- destruct (Nat.eqb_spec (S sc) (S (tdim (ftype b f)))) as [E|E].
           ++ assert (Z : subnums b f (S sc) = []).
              { apply length_zero_iff_nil. rewrite subnums_length. apply tsize_big. lia. }
              rewrite Z. repeat constructor.
           ++ rewrite app_nil_r. apply StronglySorted_map_add; auto.
        -- intros x y Hx. apply R in Hx. rewrite in_app_iff, in_map_iff.
           intros [(y' & <- & Hy)|Hy]; [lia|].
           destruct (Nat.eqb_spec (S sc) (S (tdim (ftype b f)))) as [E|E]; [|easy].
           destruct Hy as [<-|[]]. rewrite tdim_ftype in E by assumption.
           pose proof (fcod_le b f Hf). replace (fcod b f + sc) with (tdim b) in Hx by lia. lia.
    + destruct sc.
      * rewrite subnums_0 by assumption. repeat constructor.
      * unfold subnums. simpl. constructor.
Qed.

(** the numbering of a face composed with the numbering of its face *)
Lemma subnums_nth T f sc j : is_face T f -> j < tsize (ftype T f) sc ->
  exists g, nth_error (faces (ftype T f) sc) j = Some g
            /\ is_face (ftype T f) g /\ fcod (ftype T f) g = sc /\ fidx (ftype T f) g = j
            /\ nth_error (subnums T f sc) j = Some (fidx T (emb f g)).
Proof.
  intros Hf Hj. destruct (nth_face_ex _ _ _ Hj) as (g & E & A & B & C).
  exists g. repeat split; auto. unfold subnums. now apply (map_nth_error (fun g => fidx T (emb f g))).
Qed.

(** ** topo_of *)

Lemma tdim_topo_of id dim : tdim (topo_of id dim) = dim.
Proof. induction dim as [|d IH]; simpl; [reflexivity|]. destruct (N.testbit _ _); simpl; auto. Qed.

Lemma topo_of_ext id id' dim :
  (forall k, k < dim -> N.testbit id (N.of_nat k) = N.testbit id' (N.of_nat k)) ->
  topo_of id dim = topo_of id' dim.
Proof.
  induction dim as [|d IH]; intros H; simpl; [reflexivity|].
  rewrite H by lia. rewrite IH by (intros; apply H; lia). reflexivity.
Qed.

Lemma topo_of_inj id id' dim : topo_of id dim = topo_of id' dim ->
  forall k, k < dim -> N.testbit id (N.of_nat k) = N.testbit id' (N.of_nat k).
Proof.
  induction dim as [|d IH]; intros H k Hk; [lia|]. simpl in H.
  assert (E : topo_of id d = topo_of id' d /\ N.testbit id (N.of_nat d) = N.testbit id' (N.of_nat d))
    by (destruct (N.testbit id _), (N.testbit id' _); inversion H; auto).
  destruct E as [E1 E2]. destruct (Nat.eq_dec k d) as [->|]; [assumption|]. apply IH; auto. lia.
Qed.
