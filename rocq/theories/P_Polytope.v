(** The face order of a prism/pyramid polytope: graded, diamond property, lattice, and
    every face is the intersection of the facets that contain it. *)
From Coq Require Import NArith PeanoNat Bool List Lia.
From Verif Require Import S_Topo P_Topo P_RefTopo3.
Import ListNotations.

Ltac fcase f H :=
  destruct f as [|f|f|f|f|f|]; cbn [is_face] in H; try contradiction.

Lemma leF_refl T : forall f, is_face T f -> leF f f.
Proof. induction T as [|b IH|b IH]; intros f Hf; fcase f Hf; simpl; auto. Qed.

Lemma leF_cod T : forall f g, is_face T f -> is_face T g -> leF g f -> fcod T f <= fcod T g.
Proof.
  induction T as [|b IH|b IH]; intros f g Hf Hg; fcase f Hf; fcase g Hg; cbn [leF fcod]; try easy;
    intros L; try (specialize (IH _ _ Hf Hg L); lia); try lia.
  - pose proof (fcod_le b f Hf). lia.
Qed.

Lemma leF_cod_eq T : forall f g, is_face T f -> is_face T g -> leF g f -> fcod T f = fcod T g -> g = f.
Proof.
  induction T as [|b IH|b IH]; intros f g Hf Hg; fcase f Hf; fcase g Hg; cbn [leF fcod]; try easy;
    intros L E; try (f_equal; apply IH; auto; lia);
    try (pose proof (leF_cod b _ _ Hf Hg L); lia).
  - pose proof (fcod_le b f Hf). lia.
Qed.

Lemma leF_whole T : forall g, is_face T g -> leF g (whole T).
Proof. induction T as [|b IH|b IH]; intros g Hg; fcase g Hg; cbn [leF whole]; auto. Qed.

Lemma cod0_whole T f : is_face T f -> fcod T f = 0 -> f = whole T.
Proof.
  intros Hf H. assert (I : In f (faces T 0)) by (apply in_faces; auto).
  rewrite faces_0 in I. destruct I as [I|[]]. now symmetry.
Qed.

(** an edge has exactly two vertices *)
Lemma edge_vertices T : forall f, is_face T f -> S (fcod T f) = tdim T ->
  exists v w, vertexF T v /\ vertexF T w /\ v <> w
    /\ forall h, vertexF T h -> leF h f <-> h = v \/ h = w.
Proof.
  unfold vertexF. induction T as [|b IH|b IH]; intros f Hf; fcase f Hf; cbn [fcod tdim]; intros E; try discriminate.
  - exists (FBot f), (FTop f). cbn [is_face fcod]. repeat split; auto; try discriminate.
    + intros L. destruct H as [H1 H2]. fcase h H1; cbn [leF fcod tdim] in L, H2.
      * pose proof (fcod_le b _ H1). lia.
      * left. f_equal. apply (leF_cod_eq b); auto. lia.
      * right. f_equal. apply (leF_cod_eq b); auto. lia.
    + intros [->| ->]; cbn [leF]; now apply (leF_refl b).
  - destruct (IH f Hf ltac:(lia)) as (v & w & [V1 V2] & [W1 W2] & N & Q).
    exists (FBot v), (FBot w). cbn [is_face fcod]. repeat split; auto; try congruence.
    + intros L. destruct H as [H1 H2]. fcase h H1; cbn [leF fcod tdim] in L, H2; try contradiction.
      destruct (proj1 (Q h ltac:(split; [assumption|lia])) L) as [->| ->]; auto.
    + intros [->| ->]; cbn [leF]; apply Q; auto.
  - destruct (IH f Hf ltac:(lia)) as (v & w & [V1 V2] & [W1 W2] & N & Q).
    exists (FTop v), (FTop w). cbn [is_face fcod]. repeat split; auto; try congruence.
    + intros L. destruct H as [H1 H2]. fcase h H1; cbn [leF fcod tdim] in L, H2; try contradiction.
      destruct (proj1 (Q h ltac:(split; [assumption|lia])) L) as [->| ->]; auto.
    + intros [->| ->]; cbn [leF]; apply Q; auto.
  - destruct (IH f Hf ltac:(lia)) as (v & w & [V1 V2] & [W1 W2] & N & Q).
    exists (FBase v), (FBase w). cbn [is_face fcod]. repeat split; auto; try congruence.
    + intros L. destruct H as [H1 H2]. fcase h H1; cbn [leF fcod tdim] in L, H2; try contradiction.
      destruct (proj1 (Q h ltac:(split; [assumption|lia])) L) as [->| ->]; auto.
    + intros [->| ->]; cbn [leF]; apply Q; auto.
  - exists (FBase f), FApex. cbn [is_face fcod]. repeat split; auto; try discriminate.
    + intros L. destruct H as [H1 H2]. fcase h H1; cbn [leF fcod tdim] in L, H2.
      * left. f_equal. apply (leF_cod_eq b); auto. lia.
      * pose proof (fcod_le b _ H1). lia.
      * now right.
    + intros [->| ->]; cbn [leF]; [now apply (leF_refl b)|exact I].
  - lia.
Qed.

(** diamond property: exactly two faces strictly between faces two codimensions apart *)
Lemma diamond T : forall f g, is_face T f -> is_face T g -> leF g f -> fcod T g = 2 + fcod T f ->
  exists v w, is_face T v /\ fcod T v = S (fcod T f) /\ is_face T w /\ fcod T w = S (fcod T f) /\ v <> w
    /\ forall h, is_face T h -> fcod T h = S (fcod T f) -> (leF g h /\ leF h f) <-> (h = v \/ h = w).
Proof.
  induction T as [|b IH|b IH]; intros f g Hf Hg; fcase f Hf; fcase g Hg; cbn [leF]; try easy; cbn [fcod tdim]; intros L E.
  all: try lia.
  - (* Side, Side *)
    destruct (IH f g Hf Hg L ltac:(lia)) as (v & w & V1 & V2 & W1 & W2 & N & Q).
    exists (FSide v), (FSide w). cbn [is_face fcod]. repeat split; auto; try congruence.
    + intros [A B]. fcase h H; cbn [leF fcod tdim] in A, B, H0; try contradiction.
      destruct (proj1 (Q h H H0) (conj A B)) as [->| ->]; auto.
    + destruct H1 as [->| ->]; cbn [leF]; apply Q; auto.
    + destruct H1 as [->| ->]; cbn [leF]; apply Q; auto.
  - (* Side, Bot *)
    exists (FSide g), (FBot f). cbn [is_face fcod]. repeat split; auto; try discriminate; try lia.
    + intros [A B]. fcase h H; cbn [leF fcod tdim] in A, B, H0; try contradiction.
      * left. f_equal. symmetry. apply (leF_cod_eq b); auto. lia.
      * right. f_equal. apply (leF_cod_eq b); auto. lia.
    + destruct H1 as [->| ->]; cbn [leF]; [now apply (leF_refl b)|assumption].
    + destruct H1 as [->| ->]; cbn [leF]; [assumption|now apply (leF_refl b)].
  - (* Side, Top *)
    exists (FSide g), (FTop f). cbn [is_face fcod]. repeat split; auto; try discriminate; try lia.
    + intros [A B]. fcase h H; cbn [leF fcod tdim] in A, B, H0; try contradiction.
      * left. f_equal. symmetry. apply (leF_cod_eq b); auto. lia.
      * right. f_equal. apply (leF_cod_eq b); auto. lia.
    + destruct H1 as [->| ->]; cbn [leF]; [now apply (leF_refl b)|assumption].
    + destruct H1 as [->| ->]; cbn [leF]; [assumption|now apply (leF_refl b)].
  - destruct (IH f g Hf Hg L ltac:(lia)) as (v & w & V1 & V2 & W1 & W2 & N & Q).
    exists (FBot v), (FBot w). cbn [is_face fcod]. repeat split; auto; try congruence.
    + intros [A B]. fcase h H; cbn [leF fcod tdim] in A, B, H0; try contradiction.
      destruct (proj1 (Q h H ltac:(lia)) (conj A B)) as [->| ->]; auto.
    + destruct H1 as [->| ->]; cbn [leF]; apply Q; auto.
    + destruct H1 as [->| ->]; cbn [leF]; apply Q; auto.
  - destruct (IH f g Hf Hg L ltac:(lia)) as (v & w & V1 & V2 & W1 & W2 & N & Q).
    exists (FTop v), (FTop w). cbn [is_face fcod]. repeat split; auto; try congruence.
    + intros [A B]. fcase h H; cbn [leF fcod tdim] in A, B, H0; try contradiction.
      destruct (proj1 (Q h H ltac:(lia)) (conj A B)) as [->| ->]; auto.
    + destruct H1 as [->| ->]; cbn [leF]; apply Q; auto.
    + destruct H1 as [->| ->]; cbn [leF]; apply Q; auto.
  - destruct (IH f g Hf Hg L ltac:(lia)) as (v & w & V1 & V2 & W1 & W2 & N & Q).
    exists (FBase v), (FBase w). cbn [is_face fcod]. repeat split; auto; try congruence.
    + intros [A B]. fcase h H; cbn [leF fcod tdim] in A, B, H0; try contradiction.
      destruct (proj1 (Q h H ltac:(lia)) (conj A B)) as [->| ->]; auto.
    + destruct H1 as [->| ->]; cbn [leF]; apply Q; auto.
    + destruct H1 as [->| ->]; cbn [leF]; apply Q; auto.
  - (* Cone, Base *)
    exists (FCone g), (FBase f). cbn [is_face fcod]. repeat split; auto; try discriminate; try lia.
    + intros [A B]. fcase h H; cbn [leF fcod tdim] in A, B, H0; try contradiction.
      * right. f_equal. apply (leF_cod_eq b); auto. lia.
      * left. f_equal. symmetry. apply (leF_cod_eq b); auto. lia.
    + destruct H1 as [->| ->]; cbn [leF]; [now apply (leF_refl b)|assumption].
    + destruct H1 as [->| ->]; cbn [leF]; [assumption|now apply (leF_refl b)].
  - destruct (IH f g Hf Hg L ltac:(lia)) as (v & w & V1 & V2 & W1 & W2 & N & Q).
    exists (FCone v), (FCone w). cbn [is_face fcod]. repeat split; auto; try congruence.
    + intros [A B]. fcase h H; cbn [leF fcod tdim] in A, B, H0; try contradiction.
      destruct (proj1 (Q h H ltac:(lia)) (conj A B)) as [->| ->]; auto.
    + destruct H1 as [->| ->]; cbn [leF]; apply Q; auto.
    + destruct H1 as [->| ->]; cbn [leF]; apply Q; auto.
  - (* Cone, Apex *)
    destruct (edge_vertices b f Hf ltac:(lia)) as (v & w & [V1 V2] & [W1 W2] & N & Q).
    exists (FCone v), (FCone w). cbn [is_face fcod]. repeat split; auto; try congruence; try lia.
    + intros [A B]. fcase h H; cbn [leF fcod tdim] in A, B, H0; try contradiction; [|lia].
      destruct (proj1 (Q h ltac:(split; [assumption|lia])) B) as [->| ->]; auto.
    + destruct H1 as [->| ->]; cbn [leF]; exact I.
    + destruct H1 as [->| ->]; cbn [leF]; apply Q; try split; auto.
Qed.

(** graded: below [f] and above [g] there is a face of the next codimension *)
Lemma graded T : forall f g, is_face T f -> is_face T g -> leF g f -> fcod T f < fcod T g ->
  exists h, is_face T h /\ fcod T h = S (fcod T f) /\ leF g h /\ leF h f.
Proof.
  induction T as [|b IH|b IH]; intros f g Hf Hg; fcase f Hf; fcase g Hg; cbn [leF]; try easy; cbn [fcod tdim]; intros L E.
  all: try lia.
  - destruct (IH f g Hf Hg L E) as (h & A & B & C & D). exists (FSide h). auto.
  - exists (FBot f). cbn [is_face fcod leF]. repeat split; auto. now apply (leF_refl b).
  - exists (FTop f). cbn [is_face fcod leF]. repeat split; auto. now apply (leF_refl b).
  - destruct (IH f g Hf Hg L ltac:(lia)) as (h & A & B & C & D). exists (FBot h). cbn [is_face fcod leF]. auto.
  - destruct (IH f g Hf Hg L ltac:(lia)) as (h & A & B & C & D). exists (FTop h). cbn [is_face fcod leF]. auto.
  - destruct (IH f g Hf Hg L ltac:(lia)) as (h & A & B & C & D). exists (FBase h). cbn [is_face fcod leF]. auto.
  - exists (FBase f). cbn [is_face fcod leF]. repeat split; auto. now apply (leF_refl b).
  - destruct (IH f g Hf Hg L ltac:(lia)) as (h & A & B & C & D). exists (FCone h). cbn [is_face fcod leF]. auto.
  - destruct (Nat.eq_dec (fcod b f) (tdim b)) as [Ef|Ef].
    + exists FApex. cbn [is_face fcod leF]. repeat split; auto.
    + pose proof (fcod_le b f Hf).
      destruct (face_has_vertex b f Hf) as (v & [V1 V2] & Sv). apply subface_le in Sv; auto.
      destruct (IH f v Hf V1 Sv ltac:(lia)) as (h & A & B & C & D). exists (FCone h). cbn [is_face fcod leF]. auto.
Qed.

(** no face lies in all facets, unless there are none *)
Lemma some_facet_misses T : 1 <= tdim T -> forall h, is_face T h ->
  exists F, is_face T F /\ fcod T F = 1 /\ ~ leF h F.
Proof.
  induction T as [|b IH|b IH]; cbn [tdim]; intros D h Hh; [lia| |]; pose proof (whole_face b) as (W1 & W2 & _);
    fcase h Hh.
  - exists (FTop (whole b)). cbn [is_face fcod leF]. auto.
  - exists (FTop (whole b)). cbn [is_face fcod leF]. auto.
  - exists (FBot (whole b)). cbn [is_face fcod leF]. auto.
  - destruct (Nat.eq_dec (tdim b) 0) as [Z|Z].
    + exists FApex. cbn [is_face fcod leF]. auto.
    + destruct (IH ltac:(lia) h Hh) as (F & F1 & F2 & F3). exists (FCone F). cbn [is_face fcod leF]. auto.
  - exists (FBase (whole b)). cbn [is_face fcod leF]. auto.
  - exists (FBase (whole b)). cbn [is_face fcod leF]. auto.
Qed.

(** a face is the intersection of the facets that contain it *)
Lemma coatomic T : forall f h, is_face T f -> is_face T h ->
  (forall F, is_face T F -> fcod T F = 1 -> leF f F -> leF h F) -> leF h f.
Proof.
  induction T as [|b IH|b IH]; intros f h Hf Hh H; fcase f Hf; fcase h Hh; cbn [leF]; try exact I;
    pose proof (whole_face b) as (W1 & W2 & _).
  - apply IH; auto. intros F F1 F2 F3. apply (H (FSide F)); auto.
  - apply IH; auto. intros F F1 F2 F3. apply (H (FSide F)); auto.
  - apply IH; auto. intros F F1 F2 F3. apply (H (FSide F)); auto.
  - apply (H (FBot (whole b))); cbn [is_face fcod leF]; auto. now apply leF_whole.
  - apply IH; auto. intros F F1 F2 F3. apply (H (FSide F)); auto.
  - apply (H (FBot (whole b))); cbn [is_face fcod leF]; auto. now apply leF_whole.
  - apply (H (FTop (whole b))); cbn [is_face fcod leF]; auto. now apply leF_whole.
  - apply (H (FTop (whole b))); cbn [is_face fcod leF]; auto. now apply leF_whole.
  - apply IH; auto. intros F F1 F2 F3. apply (H (FSide F)); auto.
  - apply IH; auto. intros F F1 F2 F3. apply (H (FCone F)); auto.
  - apply (H (FBase (whole b))); cbn [is_face fcod leF]; auto. now apply leF_whole.
  - apply (H (FBase (whole b))); cbn [is_face fcod leF]; auto. now apply leF_whole.
  - apply IH; auto. intros F F1 F2 F3. apply (H (FCone F)); auto.
  - apply IH; auto. intros F F1 F2 F3. apply (H (FCone F)); auto.
  - destruct (Nat.eq_dec (tdim b) 0) as [Z|Z].
    + apply (H FApex); cbn [is_face fcod leF]; auto.
    + destruct (some_facet_misses b ltac:(lia) h Hh) as (F & F1 & F2 & F3).
      apply F3. apply (H (FCone F)); cbn [is_face fcod leF]; auto.
  - destruct (Nat.eq_dec (tdim b) 0) as [Z|Z].
    + apply (H FApex); cbn [is_face fcod leF]; auto.
    + destruct (some_facet_misses b ltac:(lia) h Hh) as (F & F1 & F2 & F3).
      apply F3. apply (H (FCone F)); cbn [is_face fcod leF]; auto.
Qed.

(** intersection of two faces *)
Fixpoint meetF (f g : Face) : option Face :=
  match f, g with
  | FPt, FPt => Some FPt
  | FSide f, FSide g => option_map FSide (meetF f g)
  | FSide f, FBot g | FBot f, FSide g | FBot f, FBot g => option_map FBot (meetF f g)
  | FSide f, FTop g | FTop f, FSide g | FTop f, FTop g => option_map FTop (meetF f g)
  | FBase f, FBase g | FBase f, FCone g | FCone f, FBase g => option_map FBase (meetF f g)
  | FCone f, FCone g => match meetF f g with Some m => Some (FCone m) | None => Some FApex end
  | FApex, FCone _ | FCone _, FApex | FApex, FApex => Some FApex
  | _, _ => None
  end.

Lemma meetF_spec T : forall f g, is_face T f -> is_face T g ->
  match meetF f g with
  | Some m => is_face T m /\ forall h, is_face T h -> leF h m <-> leF h f /\ leF h g
  | None => forall h, is_face T h -> ~ (leF h f /\ leF h g)
  end.
Proof.
  induction T as [|b IH|b IH]; intros f g Hf Hg; fcase f Hf; fcase g Hg; cbn [meetF];
    try (specialize (IH f g Hf Hg); destruct (meetF f g) as [m|]; cbn [option_map]);
    try (destruct IH as [M Q]; split; [exact M|]); try (split; [exact I|]);
    intros h Hh; fcase h Hh; cbn [leF]; try tauto; try (now apply Q); try (now apply IH).
  all: specialize (IH h Hh); tauto.
Qed.

(** smallest face containing two faces *)
Fixpoint joinF (f g : Face) : Face :=
  match f, g with
  | FPt, FPt => FPt
  | FBot f, FBot g => FBot (joinF f g)
  | FTop f, FTop g => FTop (joinF f g)
  | FSide f, FSide g | FSide f, FBot g | FSide f, FTop g | FBot f, FSide g | FTop f, FSide g
  | FBot f, FTop g | FTop f, FBot g => FSide (joinF f g)
  | FBase f, FBase g => FBase (joinF f g)
  | FBase f, FCone g | FCone f, FBase g | FCone f, FCone g => FCone (joinF f g)
  | FApex, FCone g | FApex, FBase g => FCone g
  | FCone f, FApex | FBase f, FApex => FCone f
  | FApex, FApex => FApex
  | _, _ => FPt
  end.

Lemma joinF_spec T : forall f g, is_face T f -> is_face T g ->
  is_face T (joinF f g) /\ forall h, is_face T h -> leF (joinF f g) h <-> leF f h /\ leF g h.
Proof.
  induction T as [|b IH|b IH]; intros f g Hf Hg; fcase f Hf; fcase g Hg; cbn [joinF];
    try (destruct (IH f g Hf Hg) as [M Q]; split; [exact M|]); try (split; [assumption || exact I|]);
    intros h Hh; fcase h Hh; cbn [leF]; try tauto; try (now apply Q).
Qed.

Lemma emb_inj T : forall f g h, is_face T f -> is_face (ftype T f) g -> is_face (ftype T f) h ->
  emb f g = emb f h -> g = h.
Proof.
  induction T as [|b IH|b IH]; intros f g h Hf; fcase f Hf; cbn [ftype emb]; intros Hg Hh E.
  - fcase g Hg. fcase h Hh. reflexivity.
  - fcase g Hg; fcase h Hh; cbn [emb] in E; try discriminate; injection E as E; f_equal; eauto.
  - injection E as E. eauto.
  - injection E as E. eauto.
  - injection E as E. eauto.
  - fcase g Hg; fcase h Hh; cbn [emb] in E; try discriminate; try injection E as E; f_equal; eauto.
  - fcase g Hg. fcase h Hh. reflexivity.
Qed.
