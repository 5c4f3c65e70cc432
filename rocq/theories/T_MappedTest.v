(** Property C93: what test-mappedgeometry.cc checks, that MappedGeometry passes it whatever its flag, and what it lets through. *)
From Coq Require Import PeanoNat NArith ZArith Bool List Reals Lia Lra Factorial.
From Verif Require Import M_Type M_RefTopo M_RefGeo M_Matrix M_Affine M_MultiLinear M_GaussNewton M_LocalFE M_CheckGeo M_MLTest M_MappedTest
  S_Topo S_RefGeo S_Matrix S_MultiLinear S_GaussNewton S_Agree S_CheckGeo P_Type P_Topo P_RefTopo P_RefTopo2 P_RefTopo3 P_RSum P_RefGeo P_RefGeo2 P_RefGeo3 P_RefGeo4
  P_Matrix P_Matrix2 P_Matrix3 P_Matrix4 P_Matrix5 P_Det P_MxBridge P_Affine
  P_ML1 P_ML2 P_ML3 P_ML4 P_ML5 P_GaussNewton P_Agree P_LocalFE T_RefGeo T_Matrix T_Affine T_MultiLinear T_GaussNewton T_LocalFE P_Agree2 T_Agree P_CheckGeo T_CheckGeo P_AffineTest
  P_MappedTest.
Import ListNotations.
Local Open Scope R_scope.

(** the rules the volume is computed with: exact for constants, with points at which nothing is thrown off; orders
    beyond one are used only if the geometry is not said to be affine *)
Definition volume_rules (tol : R) (id : N) (mydim : nat) (affine : bool) (opts : ConvOpts) (rule : Z -> option Rule) : Prop :=
  forall p, (1 <= p <= Z.max 1 (co_maxIt opts - 1))%Z -> (affine = true -> p = 1%Z) ->
    exists l, rule p = Some l /\ fold_right (fun pw acc => snd pw + acc) 0 l = referenceVolume id mydim /\ forall x w, In (x, w) l -> usable tol id mydim x.

Lemma mapped_d mydim cdim M X d : pinv mydim cdim M X d -> d = sqrt (detR mydim (mmul cdim M (mtr M))).
Proof. intros (D1 & D2 & _). rewrite <- D2. symmetry. apply sqrt_square. lra. Qed.

(** MappedGeometry of an affine mapping over an affine geometry of any class passes checkGeometry, whatever its flag, if and
    only if it is not too small *)
Theorem C93_mapped :
  forall mydim gdim cdim tol tolc junk id r o1 M1 o2 M2 w g ret j1 j2 rule opts gn c q,
    (mydim <= gdim)%nat -> (mydim <= cdim)%nat -> (mydim < 256)%nat -> 0 < tol < 1 / 2 -> (id < 2 ^ N.of_nat mydim)%N -> re_infos id mydim = Some r ->
    affine_instance mydim gdim tol id r o1 M1 w -> mg_geo g = wrap id r w ->
    row_independent mydim gdim M1 -> (forall x k, (k < cdim)%nat -> mg_map g x k = o2 k + rsum gdim (fun l => M2 l k * x l)) -> (forall x, meq cdim gdim (mg_dmap g x) (mtr M2)) ->
    let M := mmul gdim M1 M2 in row_independent mydim cdim M ->
    gn_usable gn -> volume_rules tol id mydim (mg_affine g) opts rule -> 0 < tolc -> re_position id mydim r 0 0 = Some c ->
    (forall x w, In (x, w) q -> usable tol id mydim x /\ ~ veq mydim x c) ->
    (checkGeometry mydim cdim tolc junk (gi_mg mydim cdim gdim ret j1 j2 rule opts g) (fun y => obind (mg_local mydim gdim cdim j1 j2 g y gn) (fun z => z)) (detR mydim) (Some q) = Some true <->
      tolc <= sqrt (detR mydim (mmul cdim M (mtr M))) * referenceVolume id mydim /\
      ((0 < mydim)%nat -> forall p, In p (referenceCorners id mydim) -> tolc < two_norm cdim (mvec mydim (mtr M) (fun j => p j - c j)))).
Proof.
  intros mydim gdim cdim tol tolc junk id r o1 M1 o2 M2 w g ret j1 j2 rule opts gn c q Hg Hm Hd Ht Hid Hr HA EW HR1 HM HD M HR HG HV Htc Hc HQ.
  assert (Hid' := Hid). rewrite <- bit_pow in Hid'. destruct (pinv_exists mydim cdim M Hm HR) as (X & d & HP). rewrite <- (mapped_d mydim cdim M X d HP).
  assert (HW : aff_wrapped mydim gdim tol id r o1 M1 (mg_geo g)) by (rewrite EW; now apply wrap_affine).
  assert (L := mapped_looks mydim gdim cdim tol id r o1 o2 M1 M2 X d g Hm Ht Hid' Hr HR HP HW HM HD ret j1 j2 rule opts gn HG HV).
  rewrite (looks_check mydim cdim tol tolc junk id r _ M X d _ _ c q Hm Ht Hid Hr HP L Htc Hc HQ).
  split; (intros [H1 H2]; split; [exact H1|]; intro Hpos).
  - intros p Hp. apply In_nth_error in Hp. destruct Hp as [i Ei]. exact (H2 Hpos i p Ei).
  - intros i p Hp. apply (H2 Hpos). exact (nth_error_In _ _ Hp).
Qed.
Print Assumptions C93_mapped.

(** ** the matrix of the test *)
Definition mp_M (n : nat) : Mat := mmul n (midentity n) (mtr mp_A).
Lemma mp_M_value m i j : (i < m)%nat -> mp_M m i j = if Nat.eqb i j then INR (i + 1) else 0.
Proof.
  intros Hi. unfold mp_M, mmul. rewrite (rsum_ext m _ (fun k => if Nat.eqb k i then mtr mp_A i j else 0)).
  - rewrite (rsum_delta m i (fun _ => mtr mp_A i j) Hi). unfold mtr, mp_A. rewrite Nat.eqb_sym. destruct (Nat.eqb_spec i j) as [->|]; ring.
  - intros k Hk. unfold midentity. rewrite (proj2 (Nat.ltb_lt i m) Hi), andb_true_r. rewrite (Nat.eqb_sym i k). destruct (Nat.eqb_spec k i) as [->|]; ring.
Qed.
Lemma mp_mvec m k x : mvec m (mtr (mp_M m)) x k = if Nat.ltb k m then INR (k + 1) * x k else 0.
Proof.
  unfold mvec, mtr. destruct (Nat.ltb_spec k m) as [L|L].
  - rewrite (rsum_ext m _ (fun j => if Nat.eqb j k then INR (j + 1) * x j else 0)).
    + now rewrite (rsum_delta m k (fun j => INR (j + 1) * x j) L).
    + intros j Hj. rewrite (mp_M_value m) by assumption. destruct (Nat.eqb j k); ring.
  - apply rsum_0. intros j Hj. rewrite (mp_M_value m) by assumption. destruct (Nat.eqb_spec j k); [lia|ring].
Qed.
Lemma mp_independent m n : (m <= n)%nat -> row_independent m n (mp_M m).
Proof.
  intros H w Hw i Hi. specialize (Hw i ltac:(lia)). rewrite mp_mvec, (proj2 (Nat.ltb_lt i m) Hi) in Hw.
  assert (0 < INR (i + 1)) by (apply lt_0_INR; lia). nra.
Qed.
Lemma mp_det m n : (m <= n)%nat -> sqrt (detR m (mmul n (mp_M m) (mtr (mp_M m)))) = INR (fact m).
Proof.
  intro H. assert (D : detR m (mmul n (mp_M m) (mtr (mp_M m))) = INR (fact m) * INR (fact m)).
  { rewrite (@detR_ext m _ (fun i j => if Nat.eqb i j then INR (i + 1) * INR (i + 1) else 0)).
    - clear. induction m as [|m IH]; [rewrite detR_0; cbn; ring|]. rewrite detR_lastrow.
      + rewrite IH, Nat.eqb_refl. rewrite fact_simpl, mult_INR. replace (m + 1)%nat with (S m) by lia. ring.
      + intros j Hj. destruct (Nat.eqb_spec m j); [lia|reflexivity].
    - intros i j Hi Hj. unfold mmul. rewrite (rsum_ext n _ (fun k => if Nat.eqb k i then INR (i + 1) * mp_M m j i else 0)).
      + rewrite (rsum_delta n i (fun _ => INR (i + 1) * mp_M m j i)) by lia. rewrite (mp_M_value m) by assumption. rewrite Nat.eqb_sym. destruct (Nat.eqb_spec i j) as [->|]; ring.
      + intros k Hk. unfold mtr. rewrite (mp_M_value m i k) by assumption. rewrite (Nat.eqb_sym i k). destruct (Nat.eqb_spec k i) as [->|]; ring. }
  rewrite D. apply sqrt_square. apply pos_INR.
Qed.

(** ** a call *)
Lemma mp_obind {A} (a : option A) (f : A -> option bool) : obind a f = Some true <-> exists x, a = Some x /\ f x = Some true.
Proof. destruct a; cbn [obind]; split; [intro H; eauto|intros (x & E & H); congruence|discriminate|intros (x & E & H); discriminate]. Qed.
Lemma mp_corners_value mydim id r : forall n i, (i + n = length (referenceCorners id mydim))%nat -> mp_corners mydim id r n i = Some (skipn i (referenceCorners id mydim)).
Proof.
  induction n as [|n IH]; intros i H; cbn [mp_corners]; [rewrite skipn_all2 by lia; reflexivity|].
  unfold re_position at 1. rewrite Nat.eqb_refl. assert (Hi : (i < length (referenceCorners id mydim))%nat) by lia. assert (E := nth_error_nth' _ vzero Hi). rewrite E. cbn [obind]. rewrite IH by lia. cbn [obind].
  f_equal. clear - Hi. revert i Hi. generalize (referenceCorners id mydim). induction l as [|a l IH]; intros [|i] Hi; cbn in *; try lia; [reflexivity|]. apply IH. lia.
Qed.
(** a call succeeds if and only if MappedGeometry passes checkGeometry over each of the four geometries *)
Theorem C93_check :
  forall mydim cdim mk jd tolc rules junk det id,
    mp_test mydim cdim mk jd tolc rules junk det id = Some true <->
    let geo r := mp_geo mydim jd id r (referenceCorners id mydim) in
    let ok w := let g := mk (mp_map mydim cdim) mp_derivative w (isSimplex (GT2 id mydim)) in
                checkGeometry mydim cdim tolc junk (fst g) (snd g) (det mydim) (rules id mydim 2%Z) = Some true in
    exists r base, re_infos id mydim = Some r /\ mp_refGeo mydim jd id r = Some base /\
      ok (wrap id r (geo r)) /\ ok (wrap id r (gi_ag mydim base)) /\ ok (reg_wrapped mydim base) /\ ok (ldg_wrapped mydim base (gi_jacobian (geo r))).
Proof.
  intros mydim cdim mk jd tolc rules junk det id. cbv zeta. unfold mp_test. split.
  - rewrite mp_obind. intros (r & Er & H). rewrite (mp_corners_value mydim id r _ 0) in H by apply C16_corner_count || (cbn [Nat.add]; symmetry; apply C16_corner_count).
    cbn [obind skipn] in H. rewrite mp_obind in H. destruct H as (p1 & E1 & H). rewrite mp_obind in H. destruct H as (base & E2 & H). rewrite mp_obind in H. destruct H as (p2 & E3 & H).
    rewrite mp_obind in H. destruct H as (p3 & E4 & H). rewrite mp_obind in H. destruct H as (p4 & E5 & H).
    assert (P : p1 && p2 && p3 && p4 = true) by congruence. rewrite !andb_true_iff in P. destruct P as (((-> & ->) & ->) & ->). exists r, base. unfold mp_checkGeometry in *. split; [exact Er|]. split; [exact E2|]. split; [exact E1|]. split; [exact E3|]. split; [exact E4|exact E5].
  - intros (r & base & Er & EB & E1 & E2 & E3 & E4). rewrite Er. cbn [obind]. rewrite (mp_corners_value mydim id r _ 0) by (cbn [Nat.add]; symmetry; apply C16_corner_count).
    cbn [obind skipn]. unfold mp_checkGeometry. rewrite E1. cbn [obind]. rewrite EB. cbn [obind]. rewrite E2. cbn [obind]. rewrite E3. cbn [obind]. rewrite E4. reflexivity.
Qed.
Print Assumptions C93_check.

Definition pj_ok (jd : MPJunk) : Prop := 0 < pj_tol jd < 1 / 2 /\ gn_usable (pj_gn jd).
Definition point_rule (tol : R) (id : N) (mydim : nat) (rule : option Rule) : Prop :=
  exists q, rule = Some q /\ forall x w, In (x, w) q -> usable tol id mydim x /\ ~ veq mydim x (meanT (topo_of id mydim)).

Lemma mp_reg_exists mydim id r ret j1 j2 : exists base, reg_make mydim id r ret j1 j2 = Some base.
Proof.
  unfold reg_make. rewrite geometry_0. cbn [obind fst snd].
  destruct (affine_from_jacobian_ok mydim mydim id r vzero (midentity mydim) ret j1 j2 (le_n _) (midentity_independent mydim)) as (a & Ea & _). now exists a.
Qed.
Lemma mp_norm m n (v : Vec) : (m <= n)%nat -> two_norm n (mvec m (mtr (mp_M m)) v) = two_norm m (fun k => INR (k + 1) * v k).
Proof.
  intro H. unfold two_norm, norm2. f_equal. induction n as [|n IH].
  - now replace m with 0%nat by lia.
  - rewrite rsum_S, mp_mvec. destruct (Nat.eq_dec m (S n)) as [->|NE].
    + rewrite rsum_S. rewrite (proj2 (Nat.ltb_lt n (S n))) by lia. f_equal. apply rsum_ext. intros k Hk. rewrite mp_mvec, (proj2 (Nat.ltb_lt k (S n))) by lia. reflexivity.
    + rewrite IH by lia. rewrite (proj2 (Nat.ltb_ge n m)) by lia. ring.
Qed.
(** the geometries of the test are identities *)
Lemma mp_identity mydim id r : (id < bit mydim)%N -> re_infos id mydim = Some r ->
  let g := {| ml_id := id; ml_ref := r; ml_corners := referenceCorners id mydim |} in ml_wf mydim g /\ corners_affine mydim mydim g vzero (midentity mydim).
Proof.
  intros Hid Hr g. split; [split; [exact Hid|]; split; [exact Hr|]; apply C16_corner_count|]. intros i c p Ec Ep k Hk. cbn [g ml_corners ml_id] in Ec, Ep.
  assert (c = p) by congruence. subst c. symmetry. now apply aff_identity.
Qed.

Section Call.
Variables (mydim cdim : nat) (tolc : R) (rules : N -> nat -> Z -> option Rule) (junk : Mat) (jd : MPJunk) (id : N) (r : RefElement) (c : Vec) (fl : bool).
Hypothesis Hm : (mydim <= cdim)%nat.
Hypothesis Hd : (mydim < 256)%nat.
Hypothesis Hid : (id < 2 ^ N.of_nat mydim)%N.
Hypothesis HJ : pj_ok jd.
Hypothesis Hr : re_infos id mydim = Some r.
Hypothesis Hc : re_position id mydim r 0 0 = Some c.
Let lib w := mp_library rules jd mydim cdim id (mp_map mydim cdim) mp_derivative w fl.

Lemma mp_wrapped base : mp_refGeo mydim jd id r = Some base ->
  let geo := mp_geo mydim jd id r (referenceCorners id mydim) in
  forall w, In w [wrap id r geo; wrap id r (gi_ag mydim base); reg_wrapped mydim base; ldg_wrapped mydim base (gi_jacobian geo)] ->
    aff_wrapped mydim mydim (pj_tol jd) id r vzero (midentity mydim) w.
Proof.
  intros EB geo. assert (Hid' := Hid). rewrite <- bit_pow in Hid'. destruct HJ as [J1 J2]. destruct (mp_identity mydim id r Hid' Hr) as [wf CA].
  assert (EB' := EB). unfold mp_refGeo, reg_make in EB'. rewrite geometry_0 in EB'. cbn [obind fst snd] in EB'.
  assert (G : affine_instance mydim mydim (pj_tol jd) id r vzero (midentity mydim) geo) by (apply AI_multilinear; [exact wf|reflexivity|exact CA]).
  assert (GW := wrap_affine mydim mydim (pj_tol jd) id r vzero (midentity mydim) geo (le_n _) Hd J1 Hid' Hr (midentity_independent mydim) G).
  intros w [<-|[<-|[<-|[<-|[]]]]].
  - exact GW.
  - apply wrap_affine; auto; [apply midentity_independent|]. eapply AI_affine. exact EB'.
  - exact (reg_affine mydim (pj_tol jd) id r _ _ _ base Hid' Hr EB).
  - apply (ldg_affine mydim (pj_tol jd) id r _ _ _ base _ Hid' Hr EB). intros x U. destruct GW as (_ & _ & _ & _ & W). destruct (W x U) as (u & J & _ & _ & E & V). exists J. auto.
Qed.
Lemma mp_affine x k : mp_map mydim cdim x k = aff mydim mp_b (mtr mp_A) x k.
Proof. unfold mp_map, mv, aff, mtr. ring. Qed.
Lemma mp_one q w : volume_rules (pj_tol jd) id mydim fl (pj_opts jd) (rules id mydim) -> 0 < tolc ->
  (forall x w, In (x, w) q -> usable (pj_tol jd) id mydim x /\ ~ veq mydim x (meanT (topo_of id mydim))) -> aff_wrapped mydim mydim (pj_tol jd) id r vzero (midentity mydim) w ->
  checkGeometry mydim cdim tolc junk (fst (lib w)) (snd (lib w)) (detR mydim) (Some q) = Some true <->
    tolc <= INR (fact mydim) * referenceVolume id mydim /\ ((0 < mydim)%nat -> forall p, In p (referenceCorners id mydim) -> tolc < two_norm mydim (fun k => INR (k + 1) * (p k - c k))).
Proof.
  intros HV Htc HQ HW. assert (Hid' := Hid). rewrite <- bit_pow in Hid'. destruct HJ as [J1 J2]. assert (HR := mp_independent mydim cdim Hm).
  destruct (pinv_exists mydim cdim (mp_M mydim) Hm HR) as (X & d & HP). rewrite <- (mp_det mydim cdim Hm), <- (mapped_d mydim cdim (mp_M mydim) X d HP).
  destruct (center_pos mydim id r Hid' Hr) as (c' & Ec & Vc). rewrite Hc in Ec. injection Ec as <-.
  unfold lib, mp_library. cbn [fst snd]. set (g := {| mg_map := _; mg_dmap := _; mg_geo := w; mg_affine := fl |}).
  assert (L := mapped_looks mydim mydim cdim (pj_tol jd) id r vzero mp_b (midentity mydim) (mtr mp_A) X d g Hm J1 Hid' Hr HR HP HW
     (fun x k _ => mp_affine x k) (fun x i j _ _ => eq_refl) (pj_ret jd) (pj_j1 jd) (pj_j2 jd) (rules id mydim) (pj_opts jd) (pj_gn jd) J2 HV).
  rewrite (looks_check mydim cdim (pj_tol jd) tolc junk id r _ (mp_M mydim) X d _ _ c q Hm J1 Hid Hr HP L Htc Hc).
  2:{ intros x w' Hx. destruct (HQ x w' Hx) as [U N]. split; [exact U|]. intro E. apply N. intros k Hk. rewrite E by assumption. now apply Vc. }
  split; (intros [H1 H2]; split; [exact H1|]; intro Hpos).
  - intros p Hp. apply In_nth_error in Hp. destruct Hp as [i Ei]. specialize (H2 Hpos i p Ei). now rewrite (mp_norm mydim cdim) in H2 by assumption.
  - intros i p Hp. rewrite (mp_norm mydim cdim) by assumption. apply (H2 Hpos). exact (nth_error_In _ _ Hp).
Qed.
Lemma mp_call mk : (forall w, mk (mp_map mydim cdim) mp_derivative w (isSimplex (GT2 id mydim)) = lib w) ->
  volume_rules (pj_tol jd) id mydim fl (pj_opts jd) (rules id mydim) -> 0 < tolc -> point_rule (pj_tol jd) id mydim (rules id mydim 2%Z) ->
  mp_test mydim cdim mk jd tolc rules junk detR id = Some true <->
    tolc <= INR (fact mydim) * referenceVolume id mydim /\ ((0 < mydim)%nat -> forall p, In p (referenceCorners id mydim) -> tolc < two_norm mydim (fun k => INR (k + 1) * (p k - c k))).
Proof.
  intros EM HV Htc (q & Eq & HQ). rewrite C93_check. cbv zeta. destruct (mp_reg_exists mydim id r (pj_ret' jd) (pj_j1' jd) (pj_j2' jd)) as [base EB].
  assert (W := mp_wrapped base EB). cbv zeta in W. assert (O := fun w H => mp_one q w HV Htc HQ (W w H)). split.
  - intros (r' & base' & Er & EB' & H & _). assert (r' = r) by congruence. subst r'. rewrite EM, Eq in H. refine (proj1 (O _ _) H). now left.
  - intro H. exists r, base. split; [exact Hr|]. split; [exact EB|]. rewrite !EM, Eq. split; [|split; [|split]]; (refine (proj2 (O _ _) H)).
    + now left.
    + right. now left.
    + right. right. now left.
    + right. right. right. now left.
Qed.
End Call.

(** a call with the class of the library succeeds if and only if the smallest admissible size is kept *)
Theorem C93_library :
  forall mydim cdim tolc rules junk jd id r c, (mydim <= cdim)%nat -> (mydim < 256)%nat -> (id < 2 ^ N.of_nat mydim)%N -> pj_ok jd ->
    re_infos id mydim = Some r -> re_position id mydim r 0 0 = Some c ->
    volume_rules (pj_tol jd) id mydim (isSimplex (GT2 id mydim)) (pj_opts jd) (rules id mydim) -> point_rule (pj_tol jd) id mydim (rules id mydim 2%Z) -> 0 < tolc ->
    (mp_test mydim cdim (mp_library rules jd mydim cdim id) jd tolc rules junk detR id = Some true <->
      tolc <= INR (fact mydim) * referenceVolume id mydim /\
      ((0 < mydim)%nat -> forall p, In p (referenceCorners id mydim) -> tolc < two_norm mydim (fun k => INR (k + 1) * (p k - c k)))).
Proof.
  intros mydim cdim tolc rules junk jd id r c Hm Hd Hid HJ Hr Hc HV HQ Ht.
  exact (mp_call mydim cdim tolc rules junk jd id r c (isSimplex (GT2 id mydim)) Hm Hd Hid HJ Hr Hc (mp_library rules jd mydim cdim id) (fun w => eq_refl) HV Ht HQ).
Qed.
Print Assumptions C93_library.

(** ** the program *)
Lemma mp_all_true mk jd tolc rules junk det : forall calls pass, mp_all mk jd tolc rules junk det calls pass = Some true <->
  pass = true /\ forall gt m n, In (gt, m, n) calls -> mp_test m n (mk m n (gt_id gt)) jd tolc rules junk det (gt_id gt) = Some true.
Proof.
  induction calls as [|[[gt m] n] calls IH]; intro pass; cbn [mp_all].
  - split; [intro H; split; [congruence|intros gt m n []]|intros [-> _]; reflexivity].
  - rewrite mp_obind. split.
    + intros (p & E & H). apply IH in H. destruct H as [H1 H2]. apply andb_true_iff in H1. destruct H1 as [-> ->]. split; [reflexivity|]. intros gt' m' n' [Q|Q]; [injection Q as <- <- <-; exact E|auto].
    + intros [-> H]. exists true. split; [apply H; now left|]. apply IH. split; [reflexivity|]. intros gt' m' n' Q. apply H. now right.
Qed.
(** the exit code is 0 if and only if every call succeeds: the repetitions add nothing *)
Theorem C93_verdict :
  forall mk jd tolc rules junk det calls,
    mp_main mk jd tolc rules junk det calls = Some true <->
    forall gt m n, In (gt, m, n) calls -> mp_test m n (mk m n (gt_id gt)) jd tolc rules junk det (gt_id gt) = Some true.
Proof.
  intros mk jd tolc rules junk det calls. unfold mp_main.
  assert (L : forall n pass, mp_repeat mk jd tolc rules junk det calls (S n) pass = Some true <-> pass = true /\ mp_all mk jd tolc rules junk det calls true = Some true).
  { induction n as [|n IH]; intro pass.
    - cbn [mp_repeat]. rewrite mp_obind. split; [intros (p & E & H)|intros [-> H]; exists true; auto]. assert (P : pass && p = true) by congruence. apply andb_true_iff in P. destruct P as [-> ->]. auto.
    - change (mp_repeat mk jd tolc rules junk det calls (S (S n)) pass) with (obind (mp_all mk jd tolc rules junk det calls true) (fun p => mp_repeat mk jd tolc rules junk det calls (S n) (pass && p))).
      rewrite mp_obind. split; [intros (p & E & H)|intros [-> H]; exists true; split; [exact H|]; now apply IH].
      apply IH in H. destruct H as [H _]. apply andb_true_iff in H. destruct H as [-> ->]. auto. }
  rewrite L, mp_all_true. split; [intros (_ & _ & H); exact H|auto].
Qed.
Print Assumptions C93_verdict.

Lemma mp_calls_ok gt m n : In (gt, m, n) mp_calls -> (m <= n)%nat /\ (0 < m <= 4)%nat /\ (gt_id gt < 2 ^ N.of_nat m)%N /\ (1 <= size (gt_id gt) m m <= 16)%nat /\ (0 < referenceVolumeInverse (gt_id gt) m <= 24)%N.
Proof.
  intro H. assert (G : forallb (fun '(gt, m, n) => (Nat.leb m n && Nat.ltb 0 m && Nat.leb m 4 && N.ltb (gt_id gt) (2 ^ N.of_nat m) && Nat.leb (size (gt_id gt) m m) 16 && Nat.leb 1 (size (gt_id gt) m m) &&
      N.ltb 0 (referenceVolumeInverse (gt_id gt) m) && N.leb (referenceVolumeInverse (gt_id gt) m) 24)%bool) mp_calls = true) by (vm_compute; reflexivity).
  rewrite forallb_forall in G. specialize (G _ H). cbn beta iota in G. rewrite !andb_true_iff in G.
  rewrite !Nat.leb_le, !Nat.ltb_lt, !N.ltb_lt, !N.leb_le in G. tauto.
Qed.
Lemma mp_calls_size gt m n tolc r c : In (gt, m, n) mp_calls -> re_infos (gt_id gt) m = Some r -> re_position (gt_id gt) m r 0 0 = Some c -> 0 < tolc < 1 / 32 ->
  tolc <= INR (fact m) * referenceVolume (gt_id gt) m /\ ((0 < m)%nat -> forall p, In p (referenceCorners (gt_id gt) m) -> tolc < two_norm m (fun k => INR (k + 1) * (p k - c k))).
Proof.
  intros H Hr Hc Ht. destruct (mp_calls_ok gt m n H) as (C1 & C2 & C3 & C4 & C5). split.
  - assert (1 <= INR (fact m)) by (change 1 with (INR 1); apply le_INR; assert (Q := lt_O_fact m); lia).
    assert (1 / 24 <= referenceVolume (gt_id gt) m).
    { unfold referenceVolume. unfold Rdiv. rewrite !Rmult_1_l. destruct C5 as [P1 P2]. apply Rinv_le_contravar; [apply IZR_lt; lia|apply IZR_le; lia]. }
    nra.
  - intros _ p Hp. apply In_nth_error in Hp. destruct Hp as [i Ei]. destruct m as [|d]; [lia|].
    destruct (center_pos (S d) (gt_id gt) r ltac:(now rewrite bit_pow) Hr) as (c' & Ec & Vc). rewrite Hc in Ec. injection Ec as <-.
    pose proof (far_coord (gt_id gt) d i p Ei) as F. assert (Q := two_norm_coord (S d) (fun k => INR (k + 1) * (p k - c k)) d ltac:(lia)). cbn beta in Q.
    rewrite Rabs_mult, Vc in Q by lia. rewrite (Rabs_right (INR (d + 1))) in Q by (apply Rle_ge, pos_INR).
    assert (1 <= INR (d + 1)) by (change 1 with (INR 1); apply le_INR; lia).
    assert (1 / 16 <= 1 / INR (size (gt_id gt) (S d) (S d))).
    { unfold Rdiv. rewrite !Rmult_1_l. apply Rinv_le_contravar; [apply lt_0_INR; lia|]. replace 16 with (INR 16) by (cbn; lra). apply le_INR. lia. }
    assert (S0 := Rabs_pos (p d - meanT (topo_of (gt_id gt) (S d)) d)). nra.
Qed.

(** what the rules must satisfy for the calls of the program *)
Definition mp_rules (jd : MPJunk) (rules : N -> nat -> Z -> option Rule) : Prop :=
  forall gt m n, In (gt, m, n) mp_calls -> volume_rules (pj_tol jd) (gt_id gt) m false (pj_opts jd) (rules (gt_id gt) m) /\ point_rule (pj_tol jd) (gt_id gt) m (rules (gt_id gt) m 2%Z).
Lemma mp_calls_pass rules junk jd tolc gt m n mk fl : In (gt, m, n) mp_calls -> pj_ok jd -> mp_rules jd rules -> 0 < tolc < 1 / 32 ->
  (forall w, mk (mp_map m n) mp_derivative w (isSimplex (GT2 (gt_id gt) m)) = mp_library rules jd m n (gt_id gt) (mp_map m n) mp_derivative w fl) ->
  mp_test m n mk jd tolc rules junk detR (gt_id gt) = Some true.
Proof.
  intros H HJ HQ Ht EM. destruct (mp_calls_ok gt m n H) as (C1 & C2 & C3 & C4 & C5). destruct (HQ gt m n H) as [Q1 Q2].
  destruct (re_infos_spec (gt_id gt) m ltac:(now rewrite bit_pow)) as (r & Er & _). destruct (center_pos m (gt_id gt) r ltac:(now rewrite bit_pow) Er) as (c & Ec & _).
  refine (proj2 (mp_call m n tolc rules junk jd (gt_id gt) r c fl C1 ltac:(lia) C3 HJ Er Ec mk EM _ (proj1 Ht) Q2) (mp_calls_size gt m n tolc r c H Er Ec Ht)).
  intros p Hp Hf. apply Q1; [exact Hp|discriminate].
Qed.
(** in exact arithmetic the program succeeds *)
Theorem C93_main :
  forall rules junk jd tolc, pj_ok jd -> mp_rules jd rules -> 0 < tolc < 1 / 32 -> mp_main (mp_library rules jd) jd tolc rules junk detR mp_calls = Some true.
Proof. intros rules junk jd tolc HJ HQ Ht. apply C93_verdict. intros gt m n I. apply (mp_calls_pass rules junk jd tolc gt m n _ (isSimplex (GT2 (gt_id gt) m)) I HJ HQ Ht). reflexivity. Qed.
Print Assumptions C93_main.

(** The flag is compared with nothing: a class that calls every mapping affine passes, and so does one that calls none so. *)
Theorem C93_flag_refuted :
  forall rules junk jd tolc fl, pj_ok jd -> mp_rules jd rules -> 0 < tolc < 1 / 32 ->
    let wrong := fun m n id map dmap w (_ : bool) => mp_library rules jd m n id map dmap w fl in
    mp_main wrong jd tolc rules junk detR mp_calls = Some true /\
    forall m n id map dmap w a, gi_affine (fst (wrong m n id map dmap w a)) = Some fl.
Proof.
  intros rules junk jd tolc fl HJ HQ Ht wrong. split; [|reflexivity]. apply C93_verdict. intros gt m n I. apply (mp_calls_pass rules junk jd tolc gt m n _ fl I HJ HQ Ht). reflexivity.
Qed.
Print Assumptions C93_flag_refuted.

(** The volume of a geometry that is not called affine is compared with the tolerance only: any value passes. *)
Definition with_volume (v : R) (g : GeoI) : GeoI := {|
  gi_affine := gi_affine g; gi_type := gi_type g; gi_corners := gi_corners g; gi_corner := gi_corner g; gi_center := gi_center g; gi_volume := Some v;
  gi_global := gi_global g; gi_jacobian := gi_jacobian g; gi_jacobianTransposed := gi_jacobianTransposed g; gi_jacobianInverse := gi_jacobianInverse g;
  gi_jacobianInverseTransposed := gi_jacobianInverseTransposed g; gi_integrationElement := gi_integrationElement g |}.
Theorem C93_volume_refuted :
  forall rules junk jd tolc v, pj_ok jd -> mp_rules jd rules -> 0 < tolc < 1 / 32 -> tolc <= v ->
    let wrong := fun m n id map dmap w (a : bool) => let g := mp_library rules jd m n id map dmap w a in if a then g else (with_volume v (fst g), snd g) in
    mp_main wrong jd tolc rules junk detR mp_calls = Some true /\
    forall m n id map dmap w, gi_volume (fst (wrong m n id map dmap w false)) = Some v.
Proof.
  intros rules junk jd tolc v HJ HQ Ht Hv wrong. split; [|reflexivity]. apply C93_verdict. intros gt m n I.
  assert (L := proj1 (C93_verdict _ _ _ _ _ _ _) (C93_main rules junk jd tolc HJ HQ Ht) gt m n I). apply C93_check in L. cbv zeta in L.
  destruct L as (r & base & Er & EB & L1 & L2 & L3 & L4).
  apply C93_check. cbv zeta. exists r, base. split; [exact Er|]. split; [exact EB|]. unfold wrong. cbv zeta. destruct (isSimplex (GT2 (gt_id gt) m)).
  - split; [exact L1|]. split; [exact L2|]. split; [exact L3|exact L4].
  - cbn [fst snd]. split; [|split; [|split]].
    + refine (C82_volume_unchecked _ _ _ _ _ _ _ v _ Hv L1). reflexivity.
    + refine (C82_volume_unchecked _ _ _ _ _ _ _ v _ Hv L2). reflexivity.
    + refine (C82_volume_unchecked _ _ _ _ _ _ _ v _ Hv L3). reflexivity.
    + refine (C82_volume_unchecked _ _ _ _ _ _ _ v _ Hv L4). reflexivity.
Qed.
Print Assumptions C93_volume_refuted.

(** The derivative of the mapping of the test is constant: a class that evaluates it at the origin whatever the point passes,
    and has the Jacobian 0 where it is 2 for the square over the unit interval. *)
Theorem C93_derivative_refuted :
  forall rules junk jd tolc, pj_ok jd -> mp_rules jd rules -> 0 < tolc < 1 / 32 ->
    let wrong := fun m n id map (dmap : Vec -> Mat) w a => mp_library rules jd m n id map (fun _ => dmap vzero) w a in
    mp_main wrong jd tolc rules junk detR mp_calls = Some true /\
    exists map dmap w x, (forall y, map y 0%nat = y 0%nat * y 0%nat) /\ (forall y, dmap y 0%nat 0%nat = 2 * y 0%nat) /\ x 0%nat = 1 /\
      (forall y, wg_global w y = Some y) /\
      (exists J, gi_jacobian (fst (mp_library rules jd 1%nat 1%nat 0%N map dmap w false)) x = Some J /\ J 0%nat 0%nat = 2) /\
      (exists J, gi_jacobian (fst (wrong 1%nat 1%nat 0%N map dmap w false)) x = Some J /\ J 0%nat 0%nat = 0).
Proof.
  intros rules junk jd tolc HJ HQ Ht wrong. split.
  - apply C93_verdict. intros gt m n I. apply (mp_calls_pass rules junk jd tolc gt m n _ (isSimplex (GT2 (gt_id gt) m)) I HJ HQ Ht). reflexivity.
  - destruct (re_infos_spec 0 1 ltac:(reflexivity)) as (r & Er & _). destruct (mp_reg_exists 1 0 r mzero mzero mzero) as [base EB].
    exists (fun y _ => y 0%nat * y 0%nat), (fun y _ _ => 2 * y 0%nat), (reg_wrapped 1 base), (fun _ => 1). split; [reflexivity|]. split; [reflexivity|]. split; [reflexivity|]. split; [reflexivity|]. split.
    + eexists. split; [reflexivity|]. cbn. ring.
    + eexists. split; [reflexivity|]. cbn. unfold vzero. ring.
Qed.
Print Assumptions C93_derivative_refuted.

(** A rule that contains the centre makes every call fail, because local() throws at the image of its starting point: this is
    why dimension 0 (line 115) is commented out. *)
Theorem C93_centre_refuted :
  forall mydim cdim tolc rules junk jd id r c q x w, (mydim <= cdim)%nat -> (mydim < 256)%nat -> (id < 2 ^ N.of_nat mydim)%N -> pj_ok jd ->
    re_infos id mydim = Some r -> re_position id mydim r 0 0 = Some c -> rules id mydim 2%Z = Some q -> In (x, w) q -> veq mydim x c ->
    mp_test mydim cdim (mp_library rules jd mydim cdim id) jd tolc rules junk detR id <> Some true.
Proof.
  intros mydim cdim tolc rules junk jd id r c q x w Hm Hd Hid HJ Hr Hc Eq Hx Vx H. apply C93_check in H. cbv zeta in H. destruct H as (r' & base & Er & EB & H & _).
  assert (r' = r) by congruence. subst r'. assert (Hid' := Hid). rewrite <- bit_pow in Hid'. assert (HJ' := HJ). destruct HJ' as [J1 J2].
  assert (W := mp_wrapped mydim jd id r Hd Hid HJ Hr base EB _ (or_introl eq_refl)).
  apply C82_check in H. destruct H as (_ & _ & _ & _ & _ & _ & _ & _ & _ & [H|(r' & p & y & _ & _ & _ & _ & _ & _ & q' & Eq' & HQ)]); [discriminate|].
  assert (q' = q) by congruence. subst q'. destruct (HQ x w Hx) as (y' & z & _ & _ & _ & _ & _ & E1 & E2 & _).
  unfold mp_library in E1, E2. cbn [fst snd gi_mg gi_global] in E1, E2.
  match type of E1 with mg_global ?g _ = _ => set (g0 := g) in * end.
  destruct (center_pos mydim id r Hid' Hr) as (c' & Ec & Vc). assert (c' = c) by congruence. subst c'.
  destruct (mapped_centre_local mydim mydim cdim (pj_tol jd) id r vzero mp_b (midentity mydim) (mtr mp_A) g0 Hm J1 Hid' Hr W
     (fun x k _ => mp_affine mydim cdim x k) (pj_j1 jd) (pj_j2 jd) (pj_gn jd) x y' J2) as [N|N].
  - intros k Hk. rewrite Vx by assumption. now apply Vc.
  - exact E1.
  - rewrite N in E2. discriminate.
  - rewrite N in E2. discriminate.
Qed.
Print Assumptions C93_centre_refuted.
Theorem C93_point_refuted :
  forall cdim tolc rules junk jd q, pj_ok jd -> rules 0%N 0%nat 2%Z = Some q -> q <> [] ->
    mp_test 0 cdim (mp_library rules jd 0 cdim 0) jd tolc rules junk detR 0 <> Some true.
Proof.
  intros cdim tolc rules junk jd [|[x w] q] HJ Eq Nq; [congruence|]. destruct (re_infos_spec 0 0 ltac:(reflexivity)) as (r & Er & _).
  destruct (center_pos 0 0 r ltac:(reflexivity) Er) as (c & Ec & _).
  apply (C93_centre_refuted 0 cdim tolc rules junk jd 0 r c ((x, w) :: q) x w); auto; [lia|lia|reflexivity|now left|intros k Hk; lia].
Qed.
Print Assumptions C93_point_refuted.

(** the triangle in the plane is blown up by 2!, its centre is mapped to (1 + 1/3, 2 + 2/3) *)
Example C93_example :
  sqrt (detR 2 (mmul 2 (mp_M 2) (mtr (mp_M 2)))) * referenceVolume 0 2 = 1 /\ mp_map 2 2 (fun _ => 1 / 3) 0%nat = 4 / 3 /\ mp_map 2 2 (fun _ => 1 / 3) 1%nat = 8 / 3.
Proof.
  split; [rewrite mp_det by lia; unfold referenceVolume; cbn; lra|]. unfold mp_map, mv, mp_A, mp_b. cbn. lra.
Qed.

(** with the first corner as the only point of every rule the program succeeds *)
Example C93_example_main :
  forall junk jd, pj_ok jd -> mp_main (mp_library (fun id m _ => Some [(nth 0 (referenceCorners id m) vzero, referenceVolume id m)]) jd) jd (1 / 1000)
    (fun id m _ => Some [(nth 0 (referenceCorners id m) vzero, referenceVolume id m)]) junk detR mp_calls = Some true.
Proof.
  intros junk jd HJ. apply C93_main; [exact HJ| |lra]. intros gt m n I. destruct (mp_calls_ok gt m n I) as (C1 & C2 & C3 & C4 & C5). destruct HJ as [J1 _].
  assert (E : nth_error (referenceCorners (gt_id gt) m) 0 = Some (nth 0 (referenceCorners (gt_id gt) m) vzero)) by (apply nth_error_nth'; rewrite C16_corner_count; lia).
  assert (U : usable (pj_tol jd) (gt_id gt) m (nth 0 (referenceCorners (gt_id gt) m) vzero)) by (apply (corner_usable _ _ _ 0); [lra|exact E]). split.
  - intros p _ _. eexists. split; [reflexivity|]. split; [cbn [fold_right snd]; ring|]. intros x w [Q|[]]. injection Q as <- <-. exact U.
  - eexists. split; [reflexivity|]. intros x w [Q|[]]. injection Q as <- <-. split; [exact U|]. intro V. destruct m as [|d]; [lia|].
    assert (F := far_coord (gt_id gt) d 0 _ E). rewrite (V d) in F by lia. rewrite Rminus_diag_eq, Rabs_R0 in F by reflexivity.
    assert (0 < INR (size (gt_id gt) (S d) (S d))) by (apply lt_0_INR; lia). assert (0 < 1 / INR (size (gt_id gt) (S d) (S d))) by (apply Rdiv_lt_0_compat; lra). lra.
Qed.
