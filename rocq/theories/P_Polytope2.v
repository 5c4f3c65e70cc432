(** Geometry of the face lattice: facet inequalities, faces as intersections with supporting
    hyperplanes, smallest face of a point. *)
From Coq Require Import NArith PeanoNat Bool List Lia Reals Lra Permutation FunctionalExtensionality.
From Verif Require Import M_Type M_RefTopo M_RefGeo P_Type P_Type2 S_Topo P_Topo P_RefTopo P_RefTopo2 P_RefTopo3 P_RSum P_RefGeo P_RefGeo2 P_RefGeo3 S_RefGeo P_RefGeo4 P_Polytope.
Import ListNotations.
Local Open Scope R_scope.

Lemma insideT_factor T x a : (1 <= tdim T)%nat -> insideT T x a -> 0 <= a.
Proof. destruct T; cbn [tdim insideT]; [lia| |]; intros _ H; lra. Qed.

(** the element is the intersection of the half spaces of its facets *)
Lemma facets_inside T : forall x a,
  (forall f, is_face T f -> fcod T f = 1%nat -> dot (tdim T) (nrm T f) x <= a * hgt T f) -> insideT T x a.
Proof.
  induction T as [|b IH|b IH]; intros x a H; cbn [insideT]; [exact I| |];
    pose proof (whole_face b) as (W1 & W2 & _).
  - pose proof (H (FBot (whole b)) W1 ltac:(cbn [fcod]; congruence)) as HB.
    pose proof (H (FTop (whole b)) W1 ltac:(cbn [fcod]; congruence)) as HT.
    rewrite hgt_Bot in HB. rewrite hgt_Top in HT. cbn [nrm tdim] in HB, HT.
    rewrite dot_upd, dot_vzero in HB by (auto; reflexivity).
    rewrite dot_upd, dot_vzero in HT by (auto; reflexivity).
    split; [lra|]. apply IH. intros f F1 F2. specialize (H (FSide f) F1 F2).
    rewrite hgt_Side in H. cbn [nrm tdim] in H. unfold dot in H at 1.
    rewrite rsum_S, nrm_support in H by lia. fold (dot (tdim b) (nrm b f) x) in H. lra.
  - pose proof (H (FBase (whole b)) W1 ltac:(cbn [fcod]; congruence)) as HB.
    rewrite hgt_Base in HB. cbn [nrm tdim] in HB.
    rewrite dot_upd, dot_vzero in HB by (auto; reflexivity).
    destruct (Nat.eq_dec (tdim b) 0) as [Z|Z].
    + assert (HA : dot (tdim (Pyr b)) (nrm (Pyr b) FApex) x <= a * hgt (Pyr b) FApex)
        by (apply H; [exact I|cbn [fcod]; lia]).
      rewrite hgt_Apex in HA. cbn [nrm tdim] in HA. rewrite dot_upd, dot_vzero in HA by (auto; reflexivity).
      split; [lra|]. destruct b; cbn [tdim] in Z; try lia. exact I.
    + assert (Q : insideT b x (a - x (tdim b))).
      { apply IH. intros f F1 F2. specialize (H (FCone f) F1 F2).
        rewrite hgt_Cone in H. cbn [nrm tdim] in H. rewrite dot_upd in H by (auto; apply nrm_support; lia).
        unfold dot in H at 1. rewrite rsum_S, nrm_support in H by lia.
        fold (dot (tdim b) (nrm b f) x) in H. fold (hgt b f) in H. lra. }
      split; [|exact Q]. pose proof (insideT_factor b x _ ltac:(lia) Q). lra.
Qed.

(** a corner lies on the hyperplane of a facet iff it is a corner of the facet *)
Lemma vertex_facet T : forall f v, is_face T f -> fcod T f = 1%nat -> vertexF T v ->
  (leF v f -> dot (tdim T) (nrm T f) (forg T v) = hgt T f)
  /\ (~ leF v f -> dot (tdim T) (nrm T f) (forg T v) < hgt T f).
Proof.
  unfold vertexF.
  induction T as [|b IH|b IH]; intros f v Hf Hc [V1 V2]; fcase f Hf; fcase v V1; cbn [fcod tdim] in Hc, V2;
    try discriminate; cbn [leF];
    try (exfalso; pose proof (fcod_le b v V1); lia).
  - (* Side, Bot *) rewrite hgt_Side. cbn [nrm tdim forg]. unfold dot at 1 2. rewrite rsum_S, nrm_support by lia.
    fold (dot (tdim b) (nrm b f) (forg b v)). rewrite Rmult_0_l, Rplus_0_r. apply IH; auto.
  - (* Side, Top *) rewrite hgt_Side. cbn [nrm tdim forg]. unfold dot at 1 2. rewrite rsum_S, nrm_support by lia.
    rewrite Rmult_0_l, Rplus_0_r.
    rewrite (rsum_ext _ _ (fun k => nrm b f k * forg b v k)) by (intros k Hk; now rewrite upd_ne by lia).
    fold (dot (tdim b) (nrm b f) (forg b v)). apply IH; auto.
  - (* Bot, Bot *) rewrite hgt_Bot. cbn [nrm tdim forg]. rewrite dot_upd, dot_vzero, forg_support by (auto; reflexivity).
    split; [lra|]. intros N. contradict N. rewrite (cod0_whole b f Hf) by lia. now apply leF_whole.
  - (* Bot, Top *) rewrite hgt_Bot. cbn [nrm tdim forg]. rewrite dot_upd, dot_vzero, upd_eq by (auto; reflexivity).
    split; [easy|lra].
  - (* Top, Bot *) rewrite hgt_Top. cbn [nrm tdim forg]. rewrite dot_upd, dot_vzero, forg_support by (auto; reflexivity).
    split; [easy|lra].
  - (* Top, Top *) rewrite hgt_Top. cbn [nrm tdim forg]. rewrite dot_upd, dot_vzero, upd_eq by (auto; reflexivity).
    split; [lra|]. intros N. contradict N. rewrite (cod0_whole b f Hf) by lia. now apply leF_whole.
  - (* Base, Base *) rewrite hgt_Base. cbn [nrm tdim forg]. rewrite dot_upd, dot_vzero, forg_support by (auto; reflexivity).
    split; [lra|]. intros N. contradict N. rewrite (cod0_whole b f Hf) by lia. now apply leF_whole.
  - (* Base, Apex *) rewrite hgt_Base. cbn [nrm tdim forg]. rewrite dot_upd, dot_vzero, upd_eq by (auto; reflexivity).
    split; [easy|lra].
  - (* Cone, Base *) rewrite hgt_Cone. cbn [nrm tdim forg]. rewrite dot_upd by (auto; apply nrm_support; lia).
    rewrite forg_support by lia. rewrite Rmult_0_r, Rplus_0_r.
    unfold dot at 1 2. rewrite rsum_S, nrm_support, Rmult_0_l, Rplus_0_r by lia.
    fold (dot (tdim b) (nrm b f) (forg b v)). apply IH; auto.
  - (* Cone, Apex *) rewrite hgt_Cone. cbn [nrm tdim forg]. rewrite dot_upd by (auto; apply nrm_support; lia).
    rewrite upd_eq, Rmult_1_r. fold (hgt b f). split; [intros _|intros N; contradict N; exact I].
    unfold dot. rewrite rsum_S, nrm_support, Rmult_0_l, Rplus_0_r by lia.
    rewrite rsum_0; [lra|]. intros k Hk. rewrite upd_ne by lia. unfold vzero. lra.
  - (* Apex, Base *) rewrite hgt_Apex. cbn [nrm tdim forg]. rewrite dot_upd, dot_vzero, forg_support by (auto; reflexivity).
    split; [easy|lra].
  - (* Apex, Apex *) rewrite hgt_Apex. cbn [nrm tdim forg]. rewrite dot_upd, dot_vzero, upd_eq by (auto; reflexivity).
    split; [lra|]. intros N. contradict N. exact I.
Qed.

(** ** Convex hull of a list of vertices *)

Definition Face_eq_dec (a b : Face) : {a = b} + {a <> b}.
Proof. decide equality. Defined.

Lemma leF_dec : forall f g, {leF g f} + {~ leF g f}.
Proof. induction f; intros g; destruct g; cbn [leF]; auto; try (now left); try (right; easy). Defined.

Definition leFb (f g : Face) : bool := if leF_dec f g then true else false.
Lemma leFb_true f g : leFb f g = true <-> leF g f.
Proof. unfold leFb. destruct (leF_dec f g); split; auto; discriminate. Qed.
Lemma leFb_false f g : leFb f g = false <-> ~ leF g f.
Proof. unfold leFb. destruct (leF_dec f g); split; auto; try discriminate. contradiction. Qed.

Definition hullL (T : Topo) (L : list Face) (x : Vec) : Prop :=
  exists w : Face -> R, (forall v, In v L -> 0 <= w v) /\ lsum w L = 1
    /\ forall k, (k < tdim T)%nat -> x k = lsum (fun v => w v * forg T v k) L.

Lemma lsum_perm {A} (g : A -> R) l l' : Permutation l l' -> lsum g l = lsum g l'.
Proof.
  induction 1; rewrite ?lsum_cons; lra.
Qed.
Lemma lsum_filter {A} (p : A -> bool) (g : A -> R) l :
  (forall v, In v l -> p v = false -> g v = 0) -> lsum g (filter p l) = lsum g l.
Proof.
  induction l as [|a l IH]; intros H; [reflexivity|]. cbn [filter]. rewrite lsum_cons.
  rewrite <- IH by (intros v I; apply H; now right).
  destruct (p a) eqn:E; [now rewrite lsum_cons|]. rewrite (H a (or_introl eq_refl) E). lra.
Qed.
Lemma lsum_zero_terms {A} (g : A -> R) l : (forall v, In v l -> 0 <= g v) -> lsum g l = 0 ->
  forall v, In v l -> g v = 0.
Proof.
  induction l as [|a l IH]; intros H E v I; [contradiction|]. rewrite lsum_cons in E.
  pose proof (H a (or_introl eq_refl)).
  pose proof (lsum_nonneg g l (fun v I => H v (or_intror I))).
  destruct I as [<-|I]; [lra|]. apply IH; auto; [|lra]. intros u U. apply H. now right.
Qed.

Lemma hullL_perm T L L' x : Permutation L L' -> hullL T L x -> hullL T L' x.
Proof.
  intros P (w & W0 & W1 & W2). exists w. split; [|split].
  - intros v I. apply W0. now apply Permutation_in with L'; [apply Permutation_sym|].
  - now rewrite <- (lsum_perm w L L' P).
  - intros k Hk. rewrite W2 by assumption. now apply lsum_perm.
Qed.

Lemma weights_by_face (L : list Face) (u : nat -> R) : NoDup L ->
  exists w : Face -> R, forall i, (i < length L)%nat -> w (nth i L FPt) = u i.
Proof.
  intros N. revert u. induction N as [|a L Ha N IH]; intros u.
  - exists (fun _ => 0). intros i H. cbn in H. lia.
  - destruct (IH (fun i => u (S i))) as (w & W).
    exists (fun v => if Face_eq_dec v a then u O else w v). intros i Hi. destruct i as [|i]; cbn [nth].
    + now destruct (Face_eq_dec a a).
    + cbn [length] in Hi. destruct (Face_eq_dec (nth i L FPt) a) as [E|E].
      * contradict Ha. rewrite <- E. apply nth_In. lia.
      * apply W. lia.
Qed.

Lemma in_hull_hullL T L x : NoDup L -> in_hull (tdim T) (map (forg T) L) x <-> hullL T L x.
Proof.
  intros N. unfold in_hull. rewrite map_length.
  assert (X : forall i, (i < length L)%nat -> nth i (map (forg T) L) (fun _ => 0) = forg T (nth i L FPt)).
  { intros i Hi. rewrite (nth_indep _ _ (forg T FPt)) by (now rewrite map_length). apply map_nth. }
  split.
  - intros (u & U0 & U1 & U2). destruct (weights_by_face L u N) as (w & W). exists w. split; [|split].
    + intros v I. destruct (In_nth _ _ FPt I) as (i & Hi & <-). rewrite W by assumption. now apply U0.
    + rewrite (lsum_nth _ _ FPt). rewrite Ssum_rsum in U1. etransitivity; [|exact U1]. apply rsum_ext. intros i Hi. now apply W.
    + intros k Hk. rewrite (U2 k Hk), Ssum_rsum, (lsum_nth _ _ FPt). apply rsum_ext. intros i Hi.
      now rewrite W, X.
  - intros (w & W0 & W1 & W2). exists (fun i => w (nth i L FPt)). split; [|split].
    + intros i Hi. apply W0. now apply nth_In.
    + rewrite Ssum_rsum, <- W1. symmetry. apply lsum_nth.
    + intros k Hk. rewrite (W2 k Hk), Ssum_rsum, (lsum_nth _ _ FPt). apply rsum_ext. intros i Hi.
      now rewrite X.
Qed.

(** the vertices of a face *)
Definition fverts (T : Topo) (f : Face) : list Face := filter (leFb f) (verts T).

Lemma in_fverts T f v : In v (fverts T f) <-> vertexF T v /\ leF v f.
Proof. unfold fverts. rewrite filter_In, in_verts, leFb_true. tauto. Qed.

Lemma fverts_perm T f : is_face T f -> Permutation (map (emb f) (verts (ftype T f))) (fverts T f).
Proof.
  intros Hf. apply NoDup_Permutation.
  - pose proof (faces_NoDup (ftype T f) (tdim (ftype T f))) as ND. fold (verts (ftype T f)) in ND.
    assert (IJ : forall g h, In g (verts (ftype T f)) -> In h (verts (ftype T f)) -> emb f g = emb f h -> g = h).
    { intros g h G H E. apply in_verts in G. apply in_verts in H. destruct G as [G1 G2], H as [H1 H2].
      now apply (emb_inj T f). }
    revert ND IJ. generalize (verts (ftype T f)). intros l ND. induction ND as [|a l Ha ND IH]; intros IJ; [constructor|].
    cbn [map]. constructor.
    + intros I. apply in_map_iff in I. destruct I as (g & E & G). apply Ha.
      rewrite <- (IJ g a); auto; [now right|now left].
    + apply IH. intros g h G H. apply IJ; now right.
  - apply NoDup_filter. apply faces_NoDup.
  - intros v. rewrite in_fverts, in_map_iff. split.
    + intros (g & <- & G). apply in_verts in G. pose proof (emb_vertex T f g Hf G) as V. split; [assumption|].
      apply (subface_le T); auto; [apply V|]. exists g. split; [apply G|reflexivity].
    + intros [[V1 V2] L]. apply (subface_le T) in L; auto. destruct L as (g & G1 & G2). exists g. split; [assumption|].
      apply in_verts. split; [assumption|]. destruct (emb_face T f g Hf G1) as (_ & C & _).
      rewrite G2, V2 in C. rewrite tdim_ftype by assumption. pose proof (fcod_le T f Hf). lia.
Qed.

Lemma hullL_support T (w : Face -> R) (f : Face) x :
  (forall v, In v (verts T) -> 0 <= w v) -> lsum w (verts T) = 1 ->
  (forall k, (k < tdim T)%nat -> x k = lsum (fun v => w v * forg T v k) (verts T)) ->
  (forall v, In v (verts T) -> ~ leF v f -> w v = 0) -> hullL T (fverts T f) x.
Proof.
  intros W0 W1 W2 W3. exists w. unfold fverts. split; [|split].
  - intros v I. apply W0. now apply filter_In in I.
  - rewrite lsum_filter; [assumption|]. intros v I E. apply W3; [assumption|]. now apply leFb_false.
  - intros k Hk. rewrite lsum_filter; [now apply W2|]. intros v I E. rewrite W3; [lra|assumption|].
    now apply leFb_false.
Qed.

(** conversely the weights of a point of a face extend by zero *)
Lemma hullL_fverts_weights T f x : hullL T (fverts T f) x ->
  exists w, (forall v, In v (verts T) -> 0 <= w v) /\ lsum w (verts T) = 1
    /\ (forall k, (k < tdim T)%nat -> x k = lsum (fun v => w v * forg T v k) (verts T))
    /\ (forall v, In v (verts T) -> ~ leF v f -> w v = 0).
Proof.
  intros (w & W0 & W1 & W2). exists (fun v => if leFb f v then w v else 0). unfold fverts in *.
  assert (X : forall g : Face -> R, lsum (fun v => (if leFb f v then w v else 0) * g v) (verts T)
               = lsum (fun v => w v * g v) (filter (leFb f) (verts T))).
  { intros g. rewrite <- (lsum_filter (leFb f)) by (intros v _ ->; lra). apply lsum_ext.
    intros v I. apply filter_In in I. destruct I as [_ ->]. reflexivity. }
  split; [|split; [|split]].
  - intros v I. destruct (leFb f v) eqn:E; [|lra]. apply W0, filter_In. auto.
  - rewrite <- W1. rewrite (lsum_ext _ (fun v => (if leFb f v then w v else 0) * 1)) by (intros; lra).
    rewrite X. apply lsum_ext. intros; lra.
  - intros k Hk. rewrite W2 by assumption. symmetry. apply X.
  - intros v I H. apply leFb_false in H. now rewrite H.
Qed.

(** a point on the hyperplane of a facet has no weight off the facet *)
Lemma weights_on_facet T (w : Face -> R) x F : is_face T F -> fcod T F = 1%nat ->
  (forall v, In v (verts T) -> 0 <= w v) -> lsum w (verts T) = 1 ->
  (forall k, (k < tdim T)%nat -> x k = lsum (fun v => w v * forg T v k) (verts T)) ->
  dot (tdim T) (nrm T F) x = hgt T F -> forall v, In v (verts T) -> ~ leF v F -> w v = 0.
Proof.
  intros F1 F2 W0 W1 W2 E v I N.
  assert (D : dot (tdim T) (nrm T F) x = lsum (fun v => w v * dot (tdim T) (nrm T F) (forg T v)) (verts T)).
  { unfold dot. rewrite (lsum_ext _ (fun v => rsum (tdim T) (fun k => nrm T F k * (w v * forg T v k)))).
    2:{ intros u _. rewrite <- rsum_scal. apply rsum_ext. intros; lra. }
    rewrite lsum_rsum_swap. apply rsum_ext. intros k Hk. rewrite lsum_scal, W2 by assumption. reflexivity. }
  assert (Z : lsum (fun v => w v * (hgt T F - dot (tdim T) (nrm T F) (forg T v))) (verts T) = 0).
  { rewrite (lsum_ext _ (fun v => hgt T F * w v + -1 * (w v * dot (tdim T) (nrm T F) (forg T v)))) by (intros; lra).
    rewrite lsum_plus, !lsum_scal, W1, <- D, E. lra. }
  assert (NN : forall u, In u (verts T) -> 0 <= w u * (hgt T F - dot (tdim T) (nrm T F) (forg T u))).
  { intros u U. apply Rmult_le_pos; [now apply W0|]. apply in_verts in U.
    destruct (leF_dec F u) as [L|L]; [rewrite (proj1 (vertex_facet T F u F1 F2 U) L); lra|].
    pose proof (proj2 (vertex_facet T F u F1 F2 U) L). lra. }
  pose proof (lsum_zero_terms _ _ NN Z v I) as Q. cbv beta in Q.
  apply in_verts in I. pose proof (proj2 (vertex_facet T F v F1 F2 I) N) as S.
  apply Rmult_integral in Q. destruct Q as [Q|Q]; [assumption|lra].
Qed.

Lemma fverts_on_facet T f F x : is_face T f -> is_face T F -> fcod T F = 1%nat -> leF f F ->
  hullL T (fverts T f) x -> dot (tdim T) (nrm T F) x = hgt T F.
Proof.
  intros Hf F1 F2 L H. destruct (hullL_fverts_weights T f x H) as (w & W0 & W1 & W2 & W3).
  assert (D : dot (tdim T) (nrm T F) x = lsum (fun v => w v * dot (tdim T) (nrm T F) (forg T v)) (verts T)).
  { unfold dot. rewrite (lsum_ext _ (fun v => rsum (tdim T) (fun k => nrm T F k * (w v * forg T v k)))).
    2:{ intros u _. rewrite <- rsum_scal. apply rsum_ext. intros; lra. }
    rewrite lsum_rsum_swap. apply rsum_ext. intros k Hk. rewrite lsum_scal, W2 by assumption. reflexivity. }
  rewrite D, (lsum_ext _ (fun v => hgt T F * w v)).
  - rewrite lsum_scal, W1. lra.
  - intros v I. destruct (leF_dec f v) as [Lv|Lv].
    + apply in_verts in I. rewrite (proj1 (vertex_facet T F v F1 F2 I)); [lra|]. eapply leF_trans; eauto.
    + rewrite W3 by assumption. lra.
Qed.

(** a face is the part of the element on the hyperplanes of the facets containing it *)
Lemma face_supporting T f x : is_face T f ->
  hullL T (fverts T f) x <->
  (hullT T x 1 /\ forall F, is_face T F -> fcod T F = 1%nat -> leF f F -> dot (tdim T) (nrm T F) x = hgt T F).
Proof.
  intros Hf. split.
  - intros H. split.
    + destruct (hullL_fverts_weights T f x H) as (w & W0 & W1 & W2 & W3). exists w. auto.
    + intros F F1 F2 L. now apply (fverts_on_facet T f F).
  - intros [(w & W0 & W1 & W2) H]. apply (hullL_support T w f x W0 W1 W2).
    intros v I N. destruct (Req_dec (w v) 0) as [E|E]; [assumption|]. contradict N.
    apply (coatomic T); auto; [apply in_verts in I; apply I|]. intros F F1 F2 L.
    destruct (leF_dec F v) as [Q|Q]; [assumption|]. contradict E.
    apply (weights_on_facet T w x F); auto.
Qed.

(** any weights of a point of a face vanish off the face *)
Lemma weights_on_face T (w : Face -> R) x f : is_face T f ->
  (forall v, In v (verts T) -> 0 <= w v) -> lsum w (verts T) = 1 ->
  (forall k, (k < tdim T)%nat -> x k = lsum (fun v => w v * forg T v k) (verts T)) ->
  hullL T (fverts T f) x -> forall v, In v (verts T) -> ~ leF v f -> w v = 0.
Proof.
  intros Hf W0 W1 W2 H v I N. destruct (Req_dec (w v) 0) as [E|E]; [assumption|]. contradict N.
  apply (coatomic T); auto; [apply in_verts in I; apply I|]. intros F F1 F2 L.
  destruct (leF_dec F v) as [Q|Q]; [assumption|]. contradict E.
  apply (weights_on_facet T w x F); auto. now apply (fverts_on_facet T f F).
Qed.

Lemma hull_meet T f g x : is_face T f -> is_face T g ->
  hullL T (fverts T f) x /\ hullL T (fverts T g) x <->
  exists m, meetF f g = Some m /\ hullL T (fverts T m) x.
Proof.
  intros Hf Hg. pose proof (meetF_spec T f g Hf Hg) as M. split.
  - intros [A B]. destruct (hullL_fverts_weights T f x A) as (w & W0 & W1 & W2 & W3).
    pose proof (weights_on_face T w x g Hg W0 W1 W2 B) as W4.
    destruct (meetF f g) as [m|].
    + exists m. split; [reflexivity|]. apply (hullL_support T w m x W0 W1 W2). intros v I N.
      destruct M as [_ M]. pose proof I as J. apply in_verts in J. rewrite (M v (proj1 J)) in N.
      destruct (leF_dec f v) as [P|P]; [|auto]. destruct (leF_dec g v) as [Q|Q]; [tauto|auto].
    + exfalso. rewrite lsum_0 in W1; [lra|]. intros v I. pose proof I as J. apply in_verts in J.
      specialize (M v (proj1 J)).
      destruct (leF_dec f v) as [P|P]; [|auto]. destruct (leF_dec g v) as [Q|Q]; [tauto|auto].
  - intros (m & E & H). rewrite E in M. destruct M as [Hm M].
    destruct (hullL_fverts_weights T m x H) as (w & W0 & W1 & W2 & W3).
    split; apply (hullL_support T w _ x W0 W1 W2); intros v I N; apply W3; auto;
      pose proof I as J; apply in_verts in J; intros L; apply (M v (proj1 J)) in L; tauto.
Qed.

(** every point of the element has a smallest face *)
Lemma smallest_face T x : hullT T x 1 ->
  exists f, is_face T f /\ hullL T (fverts T f) x
    /\ forall g, is_face T g -> hullL T (fverts T g) x -> leF f g.
Proof.
  intros (w & W0 & W1 & W2).
  (* the join of the vertices with positive weight *)
  assert (J : forall l, (forall v, In v l -> is_face T v) -> l <> [] ->
     exists f, is_face T f /\ forall g, is_face T g -> leF f g <-> forall v, In v l -> leF v g).
  { induction l as [|a l IH]; intros Hl NE; [contradiction|]. destruct l as [|b l].
    - exists a. split; [apply Hl; now left|]. intros g Hg. split; [|intros H; apply H; now left].
      intros L v [<-|[]]. assumption.
    - destruct IH as (f & Hf & Q); [intros v I; apply Hl; now right|discriminate|].
      destruct (joinF_spec T a f (Hl a (or_introl eq_refl)) Hf) as [JF JQ].
      exists (joinF a f). split; [assumption|]. intros g Hg. rewrite (JQ g Hg), (Q g Hg). split.
      + intros [A B] v [<-|I]; auto.
      + intros H. split; [apply H; now left|]. intros v I. apply H. now right. }
  set (pos := fun v => if Req_EM_T (w v) 0 then false else true).
  destruct (J (filter pos (verts T))) as (f & Hf & Q).
  - intros v I. apply filter_In in I. destruct I as [I _]. apply in_verts in I. apply I.
  - intros E. assert (lsum w (filter pos (verts T)) = 1).
    { rewrite lsum_filter; [assumption|]. intros v _. unfold pos. destruct (Req_EM_T (w v) 0); [auto|discriminate]. }
    rewrite E in H. cbn in H. lra.
  - exists f. split; [assumption|]. split.
    + apply (hullL_support T w f x W0 W1 W2). intros v I N. destruct (Req_dec (w v) 0) as [E|E]; [assumption|].
      contradict N. apply (proj1 (Q f Hf)); [now apply (leF_refl T)|]. apply filter_In. split; [assumption|].
      unfold pos. destruct (Req_EM_T (w v) 0); [contradiction|reflexivity].
    + intros g Hg H. apply Q; [assumption|]. intros v I. apply filter_In in I. destruct I as [I P].
      destruct (leF_dec g v) as [L|L]; [assumption|]. exfalso. revert P. unfold pos.
      rewrite (weights_on_face T w x g Hg W0 W1 W2 H v I L). destruct (Req_EM_T 0 0); [discriminate|contradiction].
Qed.

(** the points of a face are the image of the face's own polytope *)
Lemma fverts_image T f x : is_face T f ->
  hullL T (fverts T f) x <->
  exists y, hullT (ftype T f) y 1 /\ forall k, (k < tdim T)%nat -> x k = Emb T f y k.
Proof.
  intros Hf. pose proof (fverts_perm T f Hf) as P. set (V := verts (ftype T f)) in *.
  assert (ND : NoDup (map (emb f) V)).
  { apply (Permutation_NoDup (Permutation_sym P)). apply NoDup_filter, faces_NoDup. }
  assert (VV : forall g, In g V -> vertexF (ftype T f) g) by (intros g; apply in_verts).
  split.
  - intros H. apply (hullL_perm T _ _ x (Permutation_sym P)) in H. destruct H as (w & W0 & W1 & W2).
    rewrite lsum_map in W1.
    exists (fun j => lsum (fun g => w (emb f g) * forg (ftype T f) g j) V). split.
    + exists (fun g => w (emb f g)). split; [|split; [assumption|reflexivity]].
      intros g G. apply W0. now apply in_map.
    + intros k Hk. rewrite (Emb_comb T f (fun g => w (emb f g)) V W1 VV Hf).
      rewrite (W2 k Hk), lsum_map. reflexivity.
  - intros (y & (u & U0 & U1 & U2) & Y). fold V in U0, U1, U2. apply (hullL_perm T _ _ x P).
    destruct (weights_by_face (map (emb f) V) (fun i => u (nth i V FPt)) ND) as (w & W).
    rewrite map_length in W.
    assert (WE : forall g, In g V -> w (emb f g) = u g).
    { intros g G. destruct (In_nth _ _ FPt G) as (i & Hi & <-). rewrite <- (W i Hi). f_equal.
      rewrite (nth_indep (map (emb f) V) FPt (emb f FPt)) by (now rewrite map_length). symmetry. apply map_nth. }
    exists w. rewrite lsum_map. split; [|split].
    + intros v I. apply in_map_iff in I. destruct I as (g & <- & G). rewrite WE by assumption. now apply U0.
    + rewrite <- U1. now apply lsum_ext.
    + intros k Hk. rewrite lsum_map, (Y k Hk).
      rewrite (lsum_ext _ (fun g => u g * forg T (emb f g) k)) by (intros g G; now rewrite WE).
      rewrite <- (Emb_comb T f u V U1 VV Hf). rewrite !Emb_Lin. f_equal. apply Lin_ext. intros j Hj. now apply U2.
Qed.
