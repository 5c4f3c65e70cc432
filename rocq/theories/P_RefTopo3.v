(** Subface = containment of vertex sets, transitivity, simplices and cubes. *)
From Coq Require Import NArith PeanoNat Bool List Lia Sorted.
From Verif Require Import M_Type M_TypeIndex M_RefTopo P_Type P_Type2 S_Topo P_Topo P_RefTopo P_RefTopo2.
Import ListNotations.

Definition subface (T : Topo) (g f : Face) : Prop :=
  exists h, is_face (ftype T f) h /\ emb f h = g.

Definition vertexF (T : Topo) (v : Face) : Prop := is_face T v /\ fcod T v = tdim T.

Lemma face_has_vertex T : forall f, is_face T f -> exists v, vertexF T v /\ subface T v f.
Proof.
  unfold vertexF, subface.
  induction T as [|b IH|b IH]; intros f Hf; destruct f; simpl in Hf; try contradiction; simpl.
  - exists FPt. repeat split. exists FPt. auto.
  - destruct (IH f Hf) as (v & [V1 V2] & h & H1 & H2). exists (FBot v). repeat split; auto.
    exists (FBot h). split; [exact H1|]. simpl. congruence.
  - destruct (IH f Hf) as (v & [V1 V2] & h & H1 & H2). exists (FBot v). repeat split; auto.
    exists h. split; [exact H1|]. simpl. congruence.
  - destruct (IH f Hf) as (v & [V1 V2] & h & H1 & H2). exists (FTop v). repeat split; auto.
    exists h. split; [exact H1|]. simpl. congruence.
  - destruct (IH f Hf) as (v & [V1 V2] & h & H1 & H2). exists (FBase v). repeat split; auto.
    exists h. split; [exact H1|]. simpl. congruence.
  - exists FApex. repeat split; auto. exists FApex. split; [exact I|]. reflexivity.
  - exists FApex. repeat split; auto. exists FPt. split; [exact I|]. reflexivity.
Qed.

(** recursive characterisation of subface *)
Fixpoint leF (g f : Face) : Prop :=
  match f, g with
  | FPt, FPt => True
  | FSide f, FSide g | FSide f, FBot g | FSide f, FTop g => leF g f
  | FBot f, FBot g | FTop f, FTop g | FBase f, FBase g => leF g f
  | FCone f, FBase g | FCone f, FCone g => leF g f
  | FCone f, FApex => True
  | FApex, FApex => True
  | _, _ => False
  end.

Lemma subface_le T : forall f g, is_face T f -> is_face T g -> subface T g f <-> leF g f.
Proof.
  unfold subface.
  induction T as [|b IH|b IH]; intros f g Hf Hg; destruct f; simpl in Hf; try contradiction;
    destruct g; simpl in Hg; try contradiction; simpl.
  - split; [auto|]. intros _. exists FPt. auto.
  - rewrite <- (IH f g Hf Hg). split.
    + intros (h & H1 & H2). destruct h; simpl in *; try contradiction; try discriminate.
      injection H2 as H2. eauto.
    + intros (h & H1 & H2). exists (FSide h). simpl. split; [assumption|congruence].
  - rewrite <- (IH f g Hf Hg). split.
    + intros (h & H1 & H2). destruct h; simpl in *; try contradiction; try discriminate.
      injection H2 as H2. eauto.
    + intros (h & H1 & H2). exists (FBot h). simpl. split; [assumption|congruence].
  - rewrite <- (IH f g Hf Hg). split.
    + intros (h & H1 & H2). destruct h; simpl in *; try contradiction; try discriminate.
      injection H2 as H2. eauto.
    + intros (h & H1 & H2). exists (FTop h). simpl. split; [assumption|congruence].
  - split; [|easy]. intros (h & H1 & H2). discriminate.
  - rewrite <- (IH f g Hf Hg). split.
    + intros (h & H1 & H2). injection H2 as H2. eauto.
    + intros (h & H1 & H2). exists h. split; [assumption|congruence].
  - split; [|easy]. intros (h & H1 & H2). discriminate.
  - split; [|easy]. intros (h & H1 & H2). discriminate.
  - split; [|easy]. intros (h & H1 & H2). discriminate.
  - rewrite <- (IH f g Hf Hg). split.
    + intros (h & H1 & H2). injection H2 as H2. eauto.
    + intros (h & H1 & H2). exists h. split; [assumption|congruence].
  - rewrite <- (IH f g Hf Hg). split.
    + intros (h & H1 & H2). injection H2 as H2. eauto.
    + intros (h & H1 & H2). exists h. split; [assumption|congruence].
  - split; [|easy]. intros (h & H1 & H2). discriminate.
  - split; [|easy]. intros (h & H1 & H2). discriminate.
  - rewrite <- (IH f g Hf Hg). split.
    + intros (h & H1 & H2). destruct h; simpl in *; try contradiction; try discriminate.
      injection H2 as H2. eauto.
    + intros (h & H1 & H2). exists (FBase h). simpl. split; [assumption|congruence].
  - rewrite <- (IH f g Hf Hg). split.
    + intros (h & H1 & H2). destruct h; simpl in *; try contradiction; try discriminate.
      injection H2 as H2. eauto.
    + intros (h & H1 & H2). exists (FCone h). simpl. split; [assumption|congruence].
  - split; [easy|]. intros _. exists FApex. auto.
  - split; [|easy]. intros (h & H1 & H2). discriminate.
  - split; [|easy]. intros (h & H1 & H2). discriminate.
  - split; [easy|]. intros _. exists FPt. auto.
Qed.

Lemma leF_trans : forall f g h, leF h g -> leF g f -> leF h f.
Proof.
  induction f; intros g h; destruct g; simpl; try easy; destruct h; simpl; try easy; eauto.
Qed.

Lemma vertices_determine T : forall f g, is_face T f -> is_face T g ->
  (forall v, vertexF T v -> leF v g -> leF v f) -> leF g f.
Proof.
  induction T as [|b IH|b IH]; intros f g Hf Hg H; destruct f; simpl in Hf; try contradiction;
    destruct g; simpl in Hg; try contradiction; simpl; try exact I.
  - apply IH; auto. intros v [V1 V2] L. apply (H (FBot v)); [split; simpl; auto|exact L].
  - apply IH; auto. intros v [V1 V2] L. apply (H (FBot v)); [split; simpl; auto|exact L].
  - apply IH; auto. intros v [V1 V2] L. apply (H (FTop v)); [split; simpl; auto|exact L].
  - destruct (face_has_vertex b g Hg) as (v & [V1 V2] & S). apply subface_le in S; auto.
    apply (H (FTop v)); [split; simpl; auto|exact S].
  - apply IH; auto. intros v [V1 V2] L. apply (H (FBot v)); [split; simpl; auto|exact L].
  - destruct (face_has_vertex b g Hg) as (v & [V1 V2] & S). apply subface_le in S; auto.
    apply (H (FTop v)); [split; simpl; auto|exact S].
  - destruct (face_has_vertex b g Hg) as (v & [V1 V2] & S). apply subface_le in S; auto.
    apply (H (FBot v)); [split; simpl; auto|exact S].
  - destruct (face_has_vertex b g Hg) as (v & [V1 V2] & S). apply subface_le in S; auto.
    apply (H (FBot v)); [split; simpl; auto|exact S].
  - apply IH; auto. intros v [V1 V2] L. apply (H (FTop v)); [split; simpl; auto|exact L].
  - apply IH; auto. intros v [V1 V2] L. apply (H (FBase v)); [split; simpl; auto|exact L].
  - apply (H FApex); [split; simpl; auto|exact I].
  - apply (H FApex); [split; simpl; auto|exact I].
  - apply IH; auto. intros v [V1 V2] L. apply (H (FBase v)); [split; simpl; auto|exact L].
  - apply IH; auto. intros v [V1 V2] L. apply (H (FBase v)); [split; simpl; auto|exact L].
  - destruct (face_has_vertex b g Hg) as (v & [V1 V2] & S). apply subface_le in S; auto.
    apply (H (FBase v)); [split; simpl; auto|exact S].
  - destruct (face_has_vertex b g Hg) as (v & [V1 V2] & S). apply subface_le in S; auto.
    apply (H (FBase v)); [split; simpl; auto|exact S].
Qed.

Lemma leF_antisym T : forall f g, is_face T f -> is_face T g -> leF f g -> leF g f -> f = g.
Proof.
  induction T as [|b IH|b IH]; intros f g Hf Hg; destruct f; simpl in Hf; try contradiction;
    destruct g; simpl in Hg; try contradiction; simpl; try contradiction; auto;
    intros; f_equal; auto.
Qed.

(** ** Membership in the stored numbers *)

Lemma in_want T f g : is_face T f -> is_face T g ->
  In (fidx T g) (want T f (fcod T g)) <-> leF g f.
Proof.
  intros Hf Hg. rewrite <- (subface_le T f g Hf Hg). unfold want, subnums, subface. split.
  - destruct (Nat.leb_spec (fcod T f) (fcod T g)); [|easy]. rewrite in_map_iff.
    intros (h & E & Hh). apply in_faces in Hh. destruct Hh as [Hh Ec].
    exists h. split; [assumption|]. destruct (emb_face T f h Hf Hh) as (A & B & _).
    apply (fidx_inj T); auto. lia.
  - intros (h & Hh & <-). destruct (emb_face T f h Hf Hh) as (A & B & _).
    destruct (Nat.leb_spec (fcod T f) (fcod T (emb f h))); [|lia].
    rewrite in_map_iff. exists h. split; [reflexivity|]. apply in_faces. split; [assumption|lia].
Qed.

(** ** API level *)

Lemma re_subEntities_face id dim T r f cc : re_ok id dim r -> topo_of id dim = T -> is_face T f -> cc <= dim ->
  re_subEntities r (fidx T f) (fcod T f) cc = Some (want T f cc).
Proof.
  intros OK <- Hf Hcc. destruct (ok_re_info _ _ _ OK f Hf) as (s & E & I).
  unfold re_subEntities. rewrite E. simpl. now apply (ok_numbers _ _ _ _ I).
Qed.

Lemma existsb_eqb_iff k l : existsb (Nat.eqb k) l = true <-> In k l.
Proof.
  rewrite existsb_exists. split.
  - intros (x & H & E). apply Nat.eqb_eq in E. now subst.
  - intros H. exists k. split; [assumption|]. apply Nat.eqb_refl.
Qed.

Lemma topo_of_inj_id a b d : (a < bit d)%N -> (b < bit d)%N -> topo_of a d = topo_of b d -> a = b.
Proof.
  intros Ha Hb E. apply N.bits_inj. intros k.
  destruct (N.lt_ge_cases k (N.of_nat d)) as [L|L].
  - pose proof (topo_of_inj a b d E (N.to_nat k) ltac:(lia)) as Q. now rewrite N2Nat.id in Q.
  - rewrite (proj1 (lt_bit_bits _ _) Ha), (proj1 (lt_bit_bits _ _) Hb); auto.
Qed.

Lemma re_subEntity_want id dim T r f ii cc : re_ok id dim r -> topo_of id dim = T -> is_face T f -> cc <= dim ->
  ii < length (want T f cc) ->
  re_subEntity r (fidx T f) (fcod T f) ii cc
  = nth_error (want T f cc) ii.
Proof.
  intros OK <- Hf Hcc Hii. destruct (ok_re_info _ _ _ OK f Hf) as (s & E & I).
  unfold re_subEntity. rewrite E. simpl. now apply (ok_number _ _ _ _ I).
Qed.

Lemma want_length T f cc : fcod T f <= cc -> length (want T f cc) = tsize (ftype T f) (cc - fcod T f).
Proof.
  intros H. unfold want. destruct (Nat.leb_spec (fcod T f) cc); [|lia]. apply subnums_length.
Qed.

(** the ii-th entry of want, as a face *)
Lemma want_nth T f cc ii : is_face T f -> fcod T f <= cc -> ii < tsize (ftype T f) (cc - fcod T f) ->
  exists g, is_face (ftype T f) g /\ fcod (ftype T f) g = cc - fcod T f /\ fidx (ftype T f) g = ii
    /\ nth_error (want T f cc) ii = Some (fidx T (emb f g)).
Proof.
  intros Hf Hc Hi. destruct (subnums_nth T f _ _ Hf Hi) as (g & _ & A & B & C & D).
  exists g. repeat split; auto. unfold want. destruct (Nat.leb_spec (fcod T f) cc); [assumption|lia].
Qed.

Lemma re_transitive id dim r i c t rs :
  (id < bit dim)%N -> dim < 256 -> re_infos id dim = Some r ->
  c <= dim -> i < re_size r c ->
  re_type r i c = Some t -> re_infos (gt_id t) (dim - c) = Some rs ->
  forall cc j, c <= cc <= dim -> j < re_size rs (cc - c) ->
  exists k, re_subEntity r i c j cc = Some k /\ k < re_size r cc
    /\ (exists t', re_type r k cc = Some t' /\ re_type rs j (cc - c) = Some t')
    /\ forall ccc jj, cc <= ccc <= dim ->
         forall n, re_size3 rs j (cc - c) (ccc - c) = Some n -> jj < n ->
         exists k', re_subEntity rs j (cc - c) jj (ccc - c) = Some k'
                    /\ re_subEntity r k cc jj ccc = re_subEntity r i c k' ccc
                    /\ re_subEntity r k cc jj ccc <> None.
Proof.
  intros Hid Hdim Hr Hc Hi Ht Hrs cc j Hcc Hj.
  destruct (re_infos_spec id dim Hid) as (r' & E & OK). rewrite Hr in E. injection E as <-.
  set (T := topo_of id dim) in *.
  destruct (re_face id dim r i c OK Hc Hi) as (f & Hf & Ec & Ei & s & Es & I). fold T in Hf, Ec, Ei.
  unfold re_type in Ht. rewrite Es in Ht. simpl in Ht. injection Ht as Ht.
  rewrite (ok_type _ _ _ _ I) in Ht. fold T in Ht. rewrite Ec, Ei in Ht.
  destruct (subTopologyId_spec dim id f Hid Hf) as [SU SL]. fold T in SU, SL. rewrite Ec, Ei in SU, SL.
  set (sid := subTopologyId id dim c i) in *.
  subst t. cbn [GT2 gt_id] in Hrs.
  destruct (re_infos_spec sid (dim - c) SL) as (rs' & E & OKs). rewrite Hrs in E. injection E as <-.
  rewrite (ok_re_size _ _ _ OKs) in Hj by lia. rewrite SU in Hj.
  assert (DF : tdim (ftype T f) = dim - c).
  { rewrite tdim_ftype by assumption. unfold T at 1. now rewrite tdim_topo_of, Ec. }
  destruct (want_nth T f cc j Hf) as (g & G1 & G2 & G3 & G4); [lia|now rewrite Ec|].
  rewrite Ec in G2.
  destruct (emb_face T f g Hf G1) as (M1 & M2 & M3).
  rewrite Ec, G2 in M2. replace (c + (cc - c)) with cc in M2 by lia.
  exists (fidx T (emb f g)). split.
  { rewrite <- Ei, <- Ec. rewrite (re_subEntity_want id dim T r f j cc OK eq_refl Hf); [exact G4|lia|].
    rewrite want_length by lia. now rewrite Ec. }
  split.
  { rewrite (ok_re_size _ _ _ OK) by lia. fold T. rewrite <- M2. now apply fidx_lt. }
  (* the info of (j, cc-c) in rs *)
  pose proof (ok_re_info _ _ _ OKs g) as IG. rewrite SU, G2, G3 in IG.
  destruct (IG G1) as (sg & Esg & Ig). clear IG.
  destruct (ok_re_info _ _ _ OK (emb f g) M1) as (se & Ese & Ie). fold T in Ese. rewrite M2 in Ese.
  split.
  { exists (type_ se). unfold re_type. rewrite Ese, Esg. simpl. split; [reflexivity|].
    rewrite (ok_type _ _ _ _ Ig), (ok_type _ _ _ _ Ie). fold T. rewrite SU, M2, G2, G3.
    replace (dim - c - (cc - c)) with (dim - cc) by lia. do 2 f_equal.
    destruct (subTopologyId_spec dim id (emb f g) Hid M1) as [A1 A2]. fold T in A1, A2. rewrite M2 in A1, A2.
    pose proof (subTopologyId_spec (dim - c) sid g SL) as B. rewrite SU in B.
    destruct (B G1) as [B1 B2]. rewrite G2, G3 in B1, B2.
    replace (dim - c - (cc - c)) with (dim - cc) in B1, B2 by lia.
    apply (topo_of_inj_id _ _ (dim - cc)); auto. congruence. }
  intros ccc jj Hccc n Hn Hjj.
  unfold re_size3 in Hn. rewrite Esg in Hn. simpl in Hn. injection Hn as Hn.
  rewrite (ok_size _ _ _ _ Ig) in Hn by lia. rewrite SU in Hn.
  pose proof Hjj as Hjj'. rewrite <- Hn in Hjj'.
  rewrite want_length in Hjj' by lia. rewrite G2 in Hjj'.
  replace (ccc - c - (cc - c)) with (ccc - cc) in Hjj' by lia.
  destruct (want_nth (ftype T f) g (ccc - c) jj G1) as (h & H1 & H2 & H3 & H4).
  { lia. } { rewrite G2. now replace (ccc - c - (cc - c)) with (ccc - cc) by lia. }
  rewrite G2 in H2.
  exists (fidx (ftype T f) (emb g h)). split.
  { pose proof (re_subEntity_want sid (dim - c) _ rs g jj (ccc - c) OKs SU) as Q.
    rewrite G2, G3 in Q. rewrite Q; auto; [lia|]. now rewrite Hn. }
  destruct (emb_face (ftype T f) g h G1 H1) as (P1 & P2 & P3).
  assert (Q1 : re_subEntity r (fidx T (emb f g)) cc jj ccc = Some (fidx T (emb (emb f g) h))).
  { rewrite <- M2 at 1. rewrite (re_subEntity_want id dim T r (emb f g) jj ccc OK eq_refl M1) by
      (try lia; rewrite want_length by lia; rewrite M3, M2; exact Hjj').
    destruct (want_nth T (emb f g) ccc jj M1) as (h' & K1 & K2 & K3 & K4).
    { lia. } { rewrite M3, M2. assumption. }
    rewrite M3 in *. rewrite M2 in K2. rewrite K4. do 2 f_equal. f_equal.
    apply (fidx_inj (ftype (ftype T f) g)); auto; lia. }
  rewrite Q1. split; [|discriminate].
  rewrite <- Ei, <- Ec. symmetry.
  rewrite G2, H2 in P2.
  assert (L : fidx (ftype T f) (emb g h) < tsize (ftype T f) (ccc - c)).
  { replace (ccc - c) with (fcod (ftype T f) (emb g h)) by lia. now apply fidx_lt. }
  rewrite (re_subEntity_want id dim T r f _ ccc OK eq_refl Hf); [|lia|rewrite want_length by lia; now rewrite Ec].
  destruct (want_nth T f ccc (fidx (ftype T f) (emb g h)) Hf) as (h' & K1 & K2 & K3 & K4).
  { lia. } { now rewrite Ec. }
  rewrite K4. do 2 f_equal.
  replace h' with (emb g h) by (apply (fidx_inj (ftype T f)); auto; lia).
  apply emb_assoc.
Qed.

(** subEntities = the subentities whose corners are corners of E *)
Lemma re_contained_iff_vertices id dim r i c k cc :
  (id < bit dim)%N -> re_infos id dim = Some r ->
  c <= dim -> i < re_size r c -> cc <= dim -> k < re_size r cc ->
  exists E vE vK,
    re_subEntities r i c cc = Some E /\ re_subEntities r i c dim = Some vE
    /\ re_subEntities r k cc dim = Some vK
    /\ (In k E <-> (forall v, In v vK -> In v vE)).
Proof.
  intros Hid Hr Hc Hi Hcc Hk.
  destruct (re_infos_spec id dim Hid) as (r' & E & OK). rewrite Hr in E. injection E as <-.
  set (T := topo_of id dim) in *.
  destruct (re_face id dim r i c OK Hc Hi) as (f & Hf & Ec & Ei & _). fold T in Hf, Ec, Ei.
  destruct (re_face id dim r k cc OK Hcc Hk) as (g & Hg & Gc & Gi & _). fold T in Hg, Gc, Gi.
  exists (want T f cc), (want T f dim), (want T g dim).
  rewrite <- Ei, <- Ec. repeat split; try (apply (re_subEntities_face id dim T); auto; lia).
  { rewrite <- Gi, <- Gc. apply (re_subEntities_face id dim T); auto; lia. }
  all: rewrite <- Gi, <- Gc; rewrite (in_want T f g Hf Hg).
  - intros L v Hv.
    assert (Lv : v < tsize T dim)
      by (apply want_range in Hv; auto; unfold T; now rewrite tdim_topo_of).
    destruct (nth_face_ex T dim v Lv) as (w & _ & W1 & W2 & W3).
    rewrite <- W3, <- W2 in Hv |- *. apply in_want in Hv; auto. apply in_want; auto.
    eapply leF_trans; eauto.
  - intros H. apply (vertices_determine T); auto. intros v [V1 V2] L.
    unfold T in V2 at 2. rewrite tdim_topo_of in V2.
    apply (in_want T); auto. rewrite V2. apply H. rewrite <- V2. apply in_want; auto.
Qed.

Lemma re_vertices_injective id dim r i k c :
  (id < bit dim)%N -> re_infos id dim = Some r ->
  c <= dim -> i < re_size r c -> k < re_size r c ->
  re_subEntities r i c dim = re_subEntities r k c dim -> i = k.
Proof.
  intros Hid Hr Hc Hi Hk E.
  destruct (re_infos_spec id dim Hid) as (r' & Er & OK). rewrite Hr in Er. injection Er as <-.
  set (T := topo_of id dim) in *.
  destruct (re_face id dim r i c OK Hc Hi) as (f & Hf & Ec & Ei & _). fold T in Hf, Ec, Ei.
  destruct (re_face id dim r k c OK Hc Hk) as (g & Hg & Gc & Gi & _). fold T in Hg, Gc, Gi.
  assert (A1 : re_subEntities r i c dim = Some (want T f dim))
    by (rewrite <- Ei, <- Ec; apply (re_subEntities_face id dim T); auto; lia).
  assert (A2 : re_subEntities r k c dim = Some (want T g dim))
    by (rewrite <- Gi, <- Gc; apply (re_subEntities_face id dim T); auto; lia).
  rewrite A1, A2 in E. injection E as E.
  assert (X : forall a b, is_face T a -> is_face T b -> want T a dim = want T b dim -> leF a b).
  { intros a b Ha Hb Q. apply (vertices_determine T); auto. intros v [V1 V2] L.
    unfold T in V2 at 2. rewrite tdim_topo_of in V2.
    apply (in_want T); auto. rewrite V2, <- Q, <- V2. apply in_want; auto. }
  rewrite <- Ei, <- Gi. f_equal. apply (leF_antisym T); auto.
Qed.

(** ** simplices and cubes *)

Fixpoint cubT (T : Topo) : Prop :=
  match T with Pt => True | Pri b => cubT b | Pyr b => b = Pt end.
Fixpoint simT (T : Topo) : Prop :=
  match T with Pt => True | Pyr b => simT b | Pri b => b = Pt end.

Lemma cubT_ftype T : forall f, is_face T f -> cubT T -> cubT (ftype T f).
Proof.
  induction T as [|b IH|b IH]; intros f Hf HT; destruct f; simpl in *; try contradiction; auto.
  - subst b. destruct f; simpl in *; try contradiction. auto.
  - subst b. destruct f; simpl in *; try contradiction. auto.
Qed.
Lemma simT_ftype T : forall f, is_face T f -> simT T -> simT (ftype T f).
Proof.
  induction T as [|b IH|b IH]; intros f Hf HT; destruct f; simpl in *; try contradiction; auto;
    subst b; destruct f; simpl in *; try contradiction; auto.
Qed.

Lemma simT_topo id d : simT (topo_of id d) <-> forall k, 1 <= k < d -> N.testbit id (N.of_nat k) = false.
Proof.
  induction d as [|d IH]; cbn [topo_of simT].
  - split; [intros _ k Hk; lia|auto].
  - destruct (N.testbit id (N.of_nat d)) eqn:E; cbn [simT].
    + split.
      * intros H k Hk. destruct d; [lia|]. cbn [topo_of] in H. destruct (N.testbit id (N.of_nat d)) in H; discriminate.
      * intros H. destruct d; [reflexivity|]. rewrite H in E by lia. discriminate.
    + rewrite IH. split; intros H k Hk.
      * destruct (Nat.eq_dec k d) as [->|]; [assumption|]. apply H. lia.
      * apply H. lia.
Qed.
Lemma cubT_topo id d : cubT (topo_of id d) <-> forall k, 1 <= k < d -> N.testbit id (N.of_nat k) = true.
Proof.
  induction d as [|d IH]; cbn [topo_of cubT].
  - split; [intros _ k Hk; lia|auto].
  - destruct (N.testbit id (N.of_nat d)) eqn:E; cbn [cubT].
    + rewrite IH. split; intros H k Hk.
      * destruct (Nat.eq_dec k d) as [->|]; [assumption|]. apply H. lia.
      * apply H. lia.
    + split.
      * intros H k Hk. destruct d; [lia|]. cbn [topo_of] in H. destruct (N.testbit id (N.of_nat d)) in H; discriminate.
      * intros H. destruct d; [reflexivity|]. rewrite H in E by lia. discriminate.
Qed.

Lemma isSimplex_simT id d : (id < bit d)%N -> isSimplex (GT2 id d) = true <-> simT (topo_of id d).
Proof.
  intros Hid. rewrite isSimplex_key, simT_topo. unfold GT2, key. cbn [gt_none gt_id negb andb].
  rewrite N.eqb_eq. split.
  - intros E k Hk. assert (X : N.testbit (N.shiftr id 1) (N.of_nat (k - 1)) = false)
      by (rewrite E; apply N.bits_0).
    rewrite N.shiftr_spec' in X. now replace (N.of_nat (k - 1) + 1)%N with (N.of_nat k) in X by lia.
  - intros H. apply N.bits_inj. intros k. rewrite N.shiftr_spec', N.bits_0.
    destruct (N.lt_ge_cases (k + 1) (N.of_nat d)) as [L|L].
    + specialize (H (N.to_nat (k + 1)) ltac:(lia)). now rewrite N2Nat.id in H.
    + now apply (proj1 (lt_bit_bits _ _) Hid).
Qed.
Lemma isCube_cubT id d : d < 256 -> (id < bit d)%N -> isCube (GT2 id d) = true <-> cubT (topo_of id d).
Proof.
  intros Hd Hid. rewrite isCube_key, cubT_topo. unfold GT2, key. cbn [gt_none gt_id gt_dim negb andb].
  rewrite to_uchar_small by assumption. rewrite <- (shiftr1 (bit d - 1)).
  rewrite bit_pow, N.sub_1_r, <- N.ones_equiv, N.eqb_eq. split.
  - intros E k Hk.
    assert (X : N.testbit (N.shiftr id 1) (N.of_nat (k - 1)) = N.testbit (N.shiftr (N.ones (N.of_nat d)) 1) (N.of_nat (k - 1)))
      by now rewrite E.
    rewrite !N.shiftr_spec' in X. replace (N.of_nat (k - 1) + 1)%N with (N.of_nat k) in X by lia.
    now rewrite N.ones_spec_low in X by lia.
  - intros H. apply N.bits_inj. intros k. rewrite !N.shiftr_spec'.
    destruct (N.lt_ge_cases (k + 1) (N.of_nat d)) as [L|L].
    + specialize (H (N.to_nat (k + 1)) ltac:(lia)). rewrite N2Nat.id in H.
      now rewrite N.ones_spec_low.
    + rewrite N.ones_spec_high by assumption. now apply (proj1 (lt_bit_bits _ _) Hid).
Qed.
