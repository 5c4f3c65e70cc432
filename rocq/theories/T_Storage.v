(** Property theorems C95: corners held by reference. *)
From Coq Require Import PeanoNat NArith Bool List Reals Lia Lra FunctionalExtensionality.
From Verif Require Import M_Type M_RefTopo M_RefGeo M_Matrix M_MultiLinear M_Storage S_Topo S_RefGeo S_Matrix S_MultiLinear P_Type P_Topo P_RefTopo P_RefTopo2 P_RefTopo3 P_RSum P_RefGeo P_RefGeo2 P_RefGeo3 P_RefGeo4
  P_Matrix2 P_Matrix4 P_Matrix5 P_ML1 P_ML2 P_ML3 P_ML4 P_ML5 T_RefGeo T_Matrix T_MultiLinear T_CheckGeo P_Storage.
Import ListNotations.
Local Open Scope R_scope.

(** ** References against copies *)

(** For every class: a program that reads a geometry only while the corners it was made of are
    unchanged cannot tell a reference from a copy. *)
Theorem C95_reference_or_copy : forall mydim C os, tidy (fun _ => None) os ->
  option_map snd (run mydim C ByValue (nothing C) os) = option_map snd (run mydim C ByRef (nothing C) os).
Proof. intros mydim C os H. apply (run_agree mydim C os (fun _ => None)); [apply rel_nothing|exact H]. Qed.
Print Assumptions C95_reference_or_copy.

Lemma fresh_gen mydim C : (forall g, exists st, gc_make C g = Some st) ->
  (forall g st st' q, option_map fst (gc_call C g st q) = option_map fst (gc_call C g st' q)) ->
  forall os m rs x y g s q, run mydim C ByRef (nothing C) os = Some (m, rs) -> m_geo m x = Some g -> ge_corners g = inr s ->
  option_map snd (run mydim C ByRef m [GCall x q]) = option_map snd (run mydim C ByRef m [GMake y (ge_id g) s; GCall y q]).
Proof.
  intros Mk Cl os m rs x y g s q Hr Hx Hs.
  assert (S : sound mydim C m).
  { apply (run_sound mydim C ByRef os (nothing C) m rs); [|exact Hr]. intros z h Hz. discriminate Hz. }
  assert (E := S x g Hx). cbn [run exec]. rewrite Hx. cbn [obind]. unfold corners_of at 1. rewrite Hs.
  destruct (m_store m s) as [cs|] eqn:Cs; [|reflexivity]. cbn [obind]. rewrite E. cbn [obind].
  destruct (Mk {| ml_id := ge_id g; ml_ref := ge_ref g; ml_corners := cs |}) as (st & St). rewrite St. cbn [obind m_geo].
  rewrite set_same. cbn [obind]. unfold corners_of. cbn [ge_corners m_store]. rewrite Cs. cbn [obind]. unfold view. cbn [ge_id ge_ref ge_state].
  specialize (Cl {| ml_id := ge_id g; ml_ref := ge_ref g; ml_corners := cs |} (ge_state g) st q).
  destruct (gc_call C _ (ge_state g) q) as [[r1 t1]|], (gc_call C _ st q) as [[r2 t2]|]; cbn in Cl |- *; congruence.
Qed.

(** MultiLinearGeometry over a reference answers, after every program, like a geometry made now. *)
Theorem C95_fresh : forall mydim cdim tol jv jm jk j1 j2 fuel os m rs x y g s q,
  let C := plain_class mydim cdim tol jv jm jk j1 j2 fuel in
  run mydim C ByRef (nothing C) os = Some (m, rs) -> m_geo m x = Some g -> ge_corners g = inr s ->
  option_map snd (run mydim C ByRef m [GCall x q]) = option_map snd (run mydim C ByRef m [GMake y (ge_id g) s; GCall y q]).
Proof.
  intros mydim cdim tol jv jm jk j1 j2 fuel os m rs x y g s q C. apply fresh_gen; [intros h; now exists tt|]. intros h [] [] c. reflexivity.
Qed.
Print Assumptions C95_fresh.

(** so a moved corner moves every point by its weight there *)
Lemma replace_spec : forall i v cs cs', replace i v cs = Some cs' ->
  length cs' = length cs /\ (i < length cs)%nat /\ forall j, nth j cs' vzero = if Nat.eqb j i then v else nth j cs vzero.
Proof.
  induction i as [|i IH]; intros v [|c cs] cs'; cbn [replace]; try discriminate.
  - intros E. injection E as <-. cbn. split; [reflexivity|]. split; [lia|]. intros [|j]; reflexivity.
  - destruct (replace i v cs) as [ds|] eqn:E; [|discriminate]. cbn [option_map]. intros F. assert (cs' = c :: ds) by congruence. subst cs'.
    destruct (IH _ _ _ E) as (A & B & D). cbn. split; [lia|]. split; [lia|]. intros [|j]; [reflexivity|]. cbn. apply D.
Qed.
Theorem C95_moved_corner : forall id mydim tol x, 0 <= tol -> regular tol (topo_of id mydim) x ->
  exists w : nat -> R, Ssum (size id mydim mydim) w = 1 /\ (in_hull mydim (referenceCorners id mydim) x -> forall i, 0 <= w i) /\
    forall cdim jv g i v cs', ml_wf mydim g -> ml_id g = id -> replace i v (ml_corners g) = Some cs' ->
      let g' := {| ml_id := id; ml_ref := ml_ref g; ml_corners := cs' |} in
      exists y y', mlg_global mydim cdim tol jv g x = Some y /\ mlg_global mydim cdim tol jv g' x = Some y' /\
        forall k, (k < cdim)%nat -> y' k = y k + w i * (v k - nth i (ml_corners g) (fun _ => 0) k).
Proof.
  intros id mydim tol x Ht Hx. destruct (C30_weights id mydim tol x Ht Hx) as (w & W1 & W2 & _ & W). exists w. split; [exact W1|]. split; [exact W2|].
  intros cdim jv g i v cs' wf Eid Rp g'. destruct (replace_spec _ _ _ _ Rp) as (L & B & V).
  assert (wf' : ml_wf mydim g').
  { destruct wf as (A1 & A2 & A3). rewrite Eid in *. repeat split; cbn; [exact A1|exact A2|congruence]. }
  destruct (W cdim jv g wf Eid) as (y & Y & YV). destruct (W cdim jv g' wf' eq_refl) as (y' & Y' & YV').
  exists y, y'. split; [exact Y|]. split; [exact Y'|]. intros k Hk. rewrite YV, YV' by exact Hk. rewrite !Ssum_rsum.
  destruct wf as (_ & _ & A3). rewrite Eid in A3.
  rewrite (rsum_ext _ (fun j => w j * nth j (ml_corners g') (fun _ => 0) k)
     (fun j => w j * nth j (ml_corners g) (fun _ => 0) k + (if Nat.eqb j i then w j * (v k - nth j (ml_corners g) (fun _ => 0) k) else 0))).
  - rewrite rsum_plus, rsum_delta by lia. reflexivity.
  - intros j Hj. cbn [ml_corners g']. change (fun _ : nat => 0) with vzero. rewrite V. destruct (Nat.eqb j i); ring.
Qed.
Print Assumptions C95_moved_corner.

(** ** The cached class does not see its corners move *)

(** Moving the corners of an affine CachedMultiLinearGeometry: global() follows corner 0 ... *)
Theorem C95_cached_stale : forall mydim cdim tol jv g g' c x y y', ca_affine c = true ->
  cm_global mydim cdim tol jv g c x = Some y -> cm_global mydim cdim tol jv g' c x = Some y' ->
  exists o o', nth_error (ml_corners g) 0 = Some o /\ nth_error (ml_corners g') 0 = Some o' /\
    forall k, y' k = y k + (o' k - o k).
Proof.
  intros mydim cdim tol jv g g' c x y y' A. unfold cm_global, mlg_corner. rewrite A.
  destruct (nth_error (ml_corners g) 0) as [o|]; [|discriminate]. destruct (nth_error (ml_corners g') 0) as [o'|]; [|discriminate].
  cbn [obind]. intros E E'. exists o, o'. split; [reflexivity|]. split; [reflexivity|]. injection E as <-. injection E' as <-. intros k. ring.
Qed.
Print Assumptions C95_cached_stale.

(** ... so among affine geometries it stays right exactly under translations. *)
Theorem C95_cached_follows : forall mydim cdim tol jv jm jk jit0 d0 g g' o o' M M' c, 0 < tol < 1 ->
  ml_wf mydim g -> ml_wf mydim g' -> ml_id g' = ml_id g ->
  corners_affine mydim cdim g o M -> corners_affine mydim cdim g' o' M' -> cm_make mydim cdim tol jm jk g jit0 d0 = Some c ->
  ((forall x, inside_ref mydim g' x -> regular tol (topo_of (ml_id g') mydim) x ->
      exists y y', cm_global mydim cdim tol jv g' c x = Some y /\ mlg_global mydim cdim tol jv g' x = Some y' /\ veq cdim y y')
   <-> meq mydim cdim M M').
Proof.
  intros mydim cdim tol jv jm jk jit0 d0 g g' o o' M M' c Ht wf wf' Eid HA HA' HM.
  assert (Ht' : 0 <= tol < 1) by lra.
  destruct (affine_detect mydim cdim tol g wf jm jk o M ltac:(lra) HA) as (jt & F & J).
  unfold cm_make in HM. rewrite F in HM. cbn [obind] in HM.
  assert (C1 : ca_affine c = true) by (injection HM as <-; reflexivity). assert (C2 : ca_jt c = jt) by (injection HM as <-; reflexivity).
  assert (L0 : (0 < length (ml_corners g'))%nat) by (rewrite (ml_wf_nv mydim g' wf'); apply nv_pos).
  destruct (nth_error (ml_corners g') 0) as [o0|] eqn:E0; [|apply nth_error_None in E0; lia].
  assert (O0 : veq cdim o0 o').
  { intros k Hk. assert (HI := proj1 (affine_img mydim cdim g' wf' o' M') HA'). rewrite <- (nth_error_nth _ _ vzero E0).
    exact (image_origin cdim (ml_id g') mydim _ _ _ k HI Hk). }
  assert (G : forall x, exists y, cm_global mydim cdim tol jv g' c x = Some y /\ forall k, (k < cdim)%nat -> y k = o' k + rsum mydim (fun j => M j k * x j)).
  { intros x. unfold cm_global, mlg_corner. rewrite C1, E0, C2. cbn [obind]. eexists. split; [reflexivity|]. intros k Hk. cbn beta.
    rewrite (O0 k Hk). f_equal. apply rsum_ext. intros j Hj. now rewrite J. }
  split.
  - intros H. assert (HB : corners_affine mydim cdim g' o' M).
    { apply (proj2 (C32_global_affine mydim cdim tol jv g' Ht' wf' o' M)). intros x I Rg. destruct (H x I Rg) as (y & y' & Y & Y' & V).
      exists y'. split; [exact Y'|]. intros k Hk. rewrite <- (V k Hk). destruct (G x) as (z & Z & ZV). assert (z = y) by congruence. subst z. now apply ZV. }
    destruct (affine_detect mydim cdim tol g' wf' jm jk o' M ltac:(lra) HB) as (j1 & F1 & J1).
    destruct (affine_detect mydim cdim tol g' wf' jm jk o' M' ltac:(lra) HA') as (j2 & F2 & J2).
    assert (j1 = j2) by congruence. subst j2. intros i k Hi Hk. rewrite <- (J1 i k Hi Hk). now apply J2.
  - intros E x I Rg. destruct (G x) as (y & Y & YV). destruct (proj1 (C32_global_affine mydim cdim tol jv g' Ht' wf' o' M') HA' x I Rg) as (y' & Y' & YV').
    exists y, y'. split; [exact Y|]. split; [exact Y'|]. intros k Hk. rewrite YV, YV' by exact Hk. f_equal. apply rsum_ext. intros j Hj. now rewrite E.
Qed.
Print Assumptions C95_cached_follows.

(** ** test-cornerstoragerefwrap.cc *)

Definition kite (r : RefElement) : MLGeo := {| ml_id := 3; ml_ref := r; ml_corners := kiteCorners |}.
Definition tri (r : RefElement) : MLGeo := {| ml_id := 0; ml_ref := r; ml_corners := triangleCorners |}.
Definition tri' (r : RefElement) : MLGeo := {| ml_id := 0; ml_ref := r; ml_corners := [vec2 (-1) 0; vec2 0 (-1); vec2 0 1] |}.

Local Opaque re_infos re_position kiteCorners vec2 IZR.
(** the four centres, for every class *)
Lemma sr_run C k r0 r3 p0 p3 s1 a1 s1' s2 a2 s2' a3 s3 :
  re_infos 0 2 = Some r0 -> re_infos 3 2 = Some r3 -> re_position 0 2 r0 0 0 = Some p0 -> re_position 3 2 r3 0 0 = Some p3 ->
  gc_make C (kite r3) = Some s1 -> gc_call C (kite r3) s1 (CGlobal p3) = Some (a1, s1') ->
  gc_make C (tri r0) = Some s2 -> gc_call C (tri r0) s2 (CGlobal p0) = Some (a2, s2') ->
  gc_call C (match k with ByValue => tri r0 | ByRef => tri' r0 end) s2' (CGlobal p0) = Some (a3, s3) ->
  option_map snd (run 2 C k (nothing C) sr_program) = Some [a1; a2; a3; a1].
Proof.
  intros R0 R3 P0 P3 M1 A1 M2 A2 A3. unfold kite, tri, tri' in *. unfold sr_program.
  destruct k; repeat first [reflexivity | progress cbn | progress unfold view | rewrite R3 | rewrite R0 | rewrite P3 | rewrite P0 | rewrite M1 | rewrite M2 | rewrite A1 | rewrite A2 | rewrite A3].
Qed.

Local Transparent re_infos re_position kiteCorners vec2 IZR.

Lemma expect_true eps v e : 0 < eps -> v 0%nat = e 0%nat -> v 1%nat = e 1%nat -> expectCenter eps v e = true.
Proof. intros He E0 E1. unfold expectCenter. apply Rltb_true. unfold norm2. cbn [rsum]. rewrite E0, E1. replace (_ + _) with 0 by ring. exact He. Qed.

Lemma kite_wf r : re_infos 3 2 = Some r -> ml_wf 2 (kite r).
Proof. intros E. repeat split; [exact E]. Qed.
Lemma tri_wf r : re_infos 0 2 = Some r -> ml_wf 2 (tri r).
Proof. intros E. repeat split; [exact E]. Qed.
Lemma tri'_wf r : re_infos 0 2 = Some r -> ml_wf 2 (tri' r).
Proof. intros E. repeat split; [exact E]. Qed.

Lemma centres : exists r0 r3 p0 p3, re_infos 0 2 = Some r0 /\ re_infos 3 2 = Some r3
  /\ re_position 0 2 r0 0 0 = Some p0 /\ re_position 3 2 r3 0 0 = Some p3
  /\ p0 0%nat = 1/3 /\ p0 1%nat = 1/3 /\ p3 0%nat = 1/2 /\ p3 1%nat = 1/2.
Proof.
  destruct (re_infos_spec 0 2 ltac:(reflexivity)) as (r0 & E0 & _). destruct (re_infos_spec 3 2 ltac:(reflexivity)) as (r3 & E3 & _).
  destruct (center_spec 2 (tri r0) (tri_wf r0 E0)) as (p0 & P0 & V0). destruct (center_spec 2 (kite r3) (kite_wf r3 E3)) as (p3 & P3 & V3).
  exists r0, r3, p0, p3. split; [exact E0|]. split; [exact E3|]. split; [exact P0|]. split; [exact P3|].
  rewrite !V0, !V3 by lia. cbn [ml_id tri kite]. rewrite !mean_corners. cbn. unfold upd, vzero. cbn. repeat split; lra.
Qed.

Lemma kite_centre tol jv r p : ml_wf 2 (kite r) -> p 0%nat = 1/2 -> p 1%nat = 1/2 ->
  exists y, mlg_global 2 2 tol jv (kite r) p = Some y /\ y 0%nat = 0 /\ y 1%nat = -1/4.
Proof. intros wf P0 P1. eexists. split; [apply global_spec; exact wf|]. unfold vset, comb. cbn. rewrite P0, P1. lra. Qed.
Lemma tri_centre tol jv r c0 c1 c2 p : let g := {| ml_id := 0; ml_ref := r; ml_corners := [c0; c1; c2] |} in
  0 <= tol < 2/3 -> ml_wf 2 g -> p 0%nat = 1/3 -> p 1%nat = 1/3 ->
  exists y, mlg_global 2 2 tol jv g p = Some y /\ forall k, (k < 2)%nat -> y k = (c0 k + c1 k + c2 k) / 3.
Proof.
  intros g Ht wf P0 P1. eexists. split; [apply global_spec; exact wf|]. intros k Hk. unfold vset. rewrite (proj2 (Nat.ltb_lt k 2) Hk).
  unfold comb. cbn. rewrite P1.
  assert (A : away tol (1 - 1/3) = true) by (apply away_true; [lra|]; rewrite Rabs_pos_eq; lra). rewrite A, P0. field.
Qed.

Section Main.
Variables (tol eps : R) (jv : Vec) (jm jk j1 j2 : Mat) (fuel : nat).
Hypothesis Ht : 0 <= tol < 2/3.
Notation Ca := (cached_class 2 2 tol jv jm jk j1 j2 fuel).

(** replies of the two kinds of storage *)
Lemma global_run C st k : (forall g, gc_make C g = Some st) ->
  (forall g x y, mlg_global 2 2 tol jv g x = Some y -> gc_call C g st (CGlobal x) = Some (RVec y, st)) ->
  exists a1 a2 a3, option_map snd (run 2 C k (nothing C) sr_program) = Some [RVec a1; RVec a2; RVec a3; RVec a1]
  /\ (a1 0%nat = 0 /\ a1 1%nat = -1/4) /\ (a2 0%nat = 0 /\ a2 1%nat = 1/3)
  /\ match k with ByRef => a3 0%nat = -1/3 /\ a3 1%nat = 0 | ByValue => a3 0%nat = 0 /\ a3 1%nat = 1/3 end.
Proof.
  intros Mk Cl. destruct centres as (r0 & r3 & p0 & p3 & R0 & R3 & P0 & P3 & V00 & V01 & V30 & V31).
  destruct (kite_centre tol jv r3 p3 (kite_wf r3 R3) V30 V31) as (y1 & Y1 & W1).
  destruct (tri_centre tol jv r0 (vec2 (-1) 0) (vec2 1 0) (vec2 0 1) p0 Ht (tri_wf r0 R0) V00 V01) as (y2 & Y2 & W2).
  destruct (tri_centre tol jv r0 (vec2 (-1) 0) (vec2 0 (-1)) (vec2 0 1) p0 Ht (tri'_wf r0 R0) V00 V01) as (y3 & Y3 & W3).
  assert (A1 : gc_call C (kite r3) st (CGlobal p3) = Some (RVec y1, st)) by (apply Cl; exact Y1).
  assert (A2 : gc_call C (tri r0) st (CGlobal p0) = Some (RVec y2, st)) by (apply Cl; exact Y2).
  assert (A3 : gc_call C (tri' r0) st (CGlobal p0) = Some (RVec y3, st)) by (apply Cl; exact Y3).
  pose proof (W2 0%nat ltac:(lia)) as W20. pose proof (W2 1%nat ltac:(lia)) as W21. pose proof (W3 0%nat ltac:(lia)) as W30. pose proof (W3 1%nat ltac:(lia)) as W31.
  unfold vec2 in W20, W21, W30, W31. cbn iota in W20, W21, W30, W31.
  destruct k.
  - exists y1, y2, y2. split; [exact (sr_run C ByValue r0 r3 p0 p3 st _ st st _ st _ st R0 R3 P0 P3 (Mk _) A1 (Mk _) A2 A2)|].
    split; [exact W1|]. split; split; lra.
  - exists y1, y2, y3. split; [exact (sr_run C ByRef r0 r3 p0 p3 st _ st st _ st _ st R0 R3 P0 P3 (Mk _) A1 (Mk _) A2 A3)|].
    split; [exact W1|]. split; split; lra.
Qed.

Lemma main_of C k l : option_map snd (run 2 C k (nothing C) sr_program) = Some l -> sr_main C k eps = Some (sr_verdict eps l sr_expected).
Proof. unfold sr_main. destruct (run 2 C k (nothing C) sr_program) as [[m rs]|]; cbn; congruence. Qed.

Lemma far_off v : eps <= 2/9 -> v 0%nat = 0 -> v 1%nat = 1/3 -> expectCenter eps v (vec2 (-1/3) 0) = false.
Proof.
  intros He E0 E1. unfold expectCenter, norm2. cbn [rsum]. rewrite E0, E1. unfold vec2. cbn iota. destruct (Rltb _ eps) eqn:E; [|reflexivity]. exfalso.
  apply Rltb_true in E. lra.
Qed.

(** the cached class: the triangle is affine, and its Jacobian is not recomputed *)
Lemma cached_run jit0 d0 : 0 < tol -> exists a1 a2, option_map snd (run 2 (Ca jit0 d0) ByRef (nothing (Ca jit0 d0)) sr_program) = Some [RVec a1; RVec a2; RVec a2; RVec a1]
  /\ a2 0%nat = 0 /\ a2 1%nat = 1/3.
Proof.
  intros T0. destruct centres as (r0 & r3 & p0 & p3 & R0 & R3 & P0 & P3 & V00 & V01 & V30 & V31).
  destruct (affine_flag 2 2 tol (kite r3) (kite_wf r3 R3) jm jk) as (jt3 & F3 & _).
  destruct (kite_centre tol jv r3 p3 (kite_wf r3 R3) V30 V31) as (y1 & Y1 & W1).
  set (M := fun i k : nat => match i with O => match k with O => 2 | _ => 0 end | _ => 1 end).
  assert (HA : corners_affine 2 2 (tri r0) (vec2 (-1) 0) M).
  { apply (proj2 (affine_img 2 2 (tri r0) (tri_wf r0 R0) _ _)). intros i k Hi Hk. cbn in Hi.
    destruct i as [|[|[|i]]]; [| | |lia]; (destruct k as [|[|k]]; [| |lia]); cbn; unfold vec2, M, upd, vzero; cbn; lra. }
  destruct (affine_detect 2 2 tol (tri r0) (tri_wf r0 R0) jm jk _ _ T0 HA) as (jt & F & J).
  destruct (cm_make 2 2 tol jm jk (kite r3) jit0 d0) as [c1|] eqn:M1; [|unfold cm_make in M1; rewrite F3 in M1; discriminate].
  destruct (cm_make 2 2 tol jm jk (tri r0) jit0 d0) as [c2|] eqn:M2; [|unfold cm_make in M2; rewrite F in M2; discriminate].
  assert (C2 : ca_affine c2 = true /\ ca_jt c2 = jt) by (unfold cm_make in M2; rewrite F in M2; cbn in M2; injection M2 as <-; auto). destruct C2 as [C2 C3].
  assert (K : exists a1, cm_global 2 2 tol jv (kite r3) c1 p3 = Some a1).
  { unfold cm_global. destruct (ca_affine c1); [cbn; eexists; reflexivity|now exists y1]. }
  destruct K as (a1 & A1).
  set (a2 := fun k => vec2 (-1) 0 k + rsum 2 (fun i => jt i k * p0 i)).
  exists a1, a2. split.
  - apply (sr_run (Ca jit0 d0) ByRef r0 r3 p0 p3 c1 _ c1 c2 _ c2 _ c2 R0 R3 P0 P3 M1).
    + cbn [gc_call cached_class cm_call]. now rewrite A1.
    + exact M2.
    + cbn [gc_call cached_class cm_call]. unfold cm_global. rewrite C2, C3. reflexivity.
    + cbn [gc_call cached_class cm_call]. unfold cm_global. rewrite C2, C3. reflexivity.
  - unfold a2. cbn [rsum]. rewrite !J, V00, V01 by lia. unfold M, vec2. lra.
Qed.
End Main.

(** MultiLinearGeometry over a reference passes; over a copy it does not, so the test does
    distinguish them; and the cached class would not pass over a reference. *)
Lemma main_gen tol eps jv C st : 0 <= tol < 2/3 -> 0 < eps -> (forall g, gc_make C g = Some st) ->
  (forall g x y, mlg_global 2 2 tol jv g x = Some y -> gc_call C g st (CGlobal x) = Some (RVec y, st)) ->
  sr_main C ByRef eps = Some true.
Proof.
  intros Ht He Mk Cl. destruct (global_run tol jv Ht C st ByRef Mk Cl) as (a1 & a2 & a3 & E & (A & A') & (B & B') & (D & D')).
  rewrite (main_of eps _ _ _ E). cbn [sr_verdict sr_expected]. rewrite !expect_true; try reflexivity; assumption.
Qed.
Theorem C95_main : forall tol eps jv jm jk j1 j2 fuel, 0 <= tol < 2/3 -> 0 < eps ->
  sr_main (plain_class 2 2 tol jv jm jk j1 j2 fuel) ByRef eps = Some true.
Proof.
  intros tol eps jv jm jk j1 j2 fuel Ht He. apply (main_gen tol eps jv (plain_class 2 2 tol jv jm jk j1 j2 fuel) tt Ht He); [reflexivity|]. intros g x y E. cbn. now rewrite E.
Qed.
Print Assumptions C95_main.
Theorem C95_copy_fails : forall tol eps jv jm jk j1 j2 fuel, 0 <= tol < 2/3 -> eps <= 2/9 ->
  sr_main (plain_class 2 2 tol jv jm jk j1 j2 fuel) ByValue eps = Some false.
Proof.
  intros tol eps jv jm jk j1 j2 fuel Ht He. destruct (global_run tol jv Ht (plain_class 2 2 tol jv jm jk j1 j2 fuel) tt ByValue) as (a1 & a2 & a3 & E & _ & _ & (D & D')); [reflexivity|intros g x y E; cbn; now rewrite E|].
  rewrite (main_of eps _ _ _ E). cbn [sr_verdict sr_expected]. rewrite (far_off eps a3 He D D'). now rewrite !andb_false_r.
Qed.
Print Assumptions C95_copy_fails.
Theorem C95_cached_fails : forall tol eps jv jm jk j1 j2 fuel jit0 d0, 0 < tol < 2/3 -> eps <= 2/9 ->
  sr_main (cached_class 2 2 tol jv jm jk j1 j2 fuel jit0 d0) ByRef eps = Some false.
Proof.
  intros tol eps jv jm jk j1 j2 fuel jit0 d0 Ht He. destruct (cached_run tol jv jm jk j1 j2 fuel jit0 d0 ltac:(lra)) as (a1 & a2 & E & D & D').
  rewrite (main_of eps _ _ _ E). cbn [sr_verdict sr_expected]. rewrite (far_off eps a2 He D D'). now rewrite !andb_false_r.
Qed.
Print Assumptions C95_cached_fails.

(** the program asks for centres only: wrong answers of all other methods go unnoticed *)
Definition centre_only (C : GClass) (wrong : MLGeo -> Call -> Reply) : GClass :=
  {| gc_State := gc_State C; gc_make := gc_make C;
     gc_call := fun g st q => match q with CGlobal _ => gc_call C g st q | _ => Some (wrong g q, st) end |}.
Theorem C95_centre_refuted : forall tol eps jv jm jk j1 j2 fuel wrong, 0 <= tol < 2/3 -> 0 < eps ->
  sr_main (centre_only (plain_class 2 2 tol jv jm jk j1 j2 fuel) wrong) ByRef eps = Some true.
Proof.
  intros tol eps jv jm jk j1 j2 fuel wrong Ht He. apply (main_gen tol eps jv (centre_only (plain_class 2 2 tol jv jm jk j1 j2 fuel) wrong) tt Ht He); [reflexivity|]. intros g x y E. cbn. now rewrite E.
Qed.
Print Assumptions C95_centre_refuted.

(** ** Examples *)

Local Opaque re_infos mlg_global vec2 IZR comb shapeC.
(** an interval [1, 3]: made by reference, corner 1 moved to 7 *)
Example C95_example : forall jv jm jk j1 j2, exists a b,
  option_map snd (run 1 (plain_class 1 1 0 jv jm jk j1 j2 1) ByRef (nothing _)
    [SNew 5 [vec2 1 0; vec2 3 0]; GMake 0 1 5; GCall 0 (CGlobal (vec2 (1/4) 0)); SSet 5 1 (vec2 7 0); GCall 0 (CGlobal (vec2 (1/4) 0))])
  = Some [RVec a; RVec b] /\ a 0%nat = 3/2 /\ b 0%nat = 5/2.
Proof.
  intros jv jm jk j1 j2. destruct (re_infos_spec 1 1 ltac:(reflexivity)) as (r & E & _).
  assert (wf : forall c d, ml_wf 1 {| ml_id := 1; ml_ref := r; ml_corners := [c; d] |}) by (intros; repeat split; [exact E]).
  do 2 eexists. split.
  - repeat first [reflexivity | rewrite E | rewrite !global_spec by apply wf | progress unfold view | progress cbn].
  - Local Transparent re_infos mlg_global vec2 IZR comb shapeC.
    unfold vset, comb. cbn. unfold vec2. lra.
Qed.
(** it is not tidy, since it reads after moving a corner; without the last call it is *)
Example C95_example_tidy : tidy (fun _ => None) [SNew 5 [vec2 1 0; vec2 3 0]; GMake 0 1 5; GCall 0 CVolume; SSet 5 1 (vec2 7 0); GMake 0 1 5; GCall 0 CVolume; SFree 5]
  /\ ~ tidy (fun _ => None) [SNew 5 [vec2 1 0; vec2 3 0]; GMake 0 1 5; SSet 5 1 (vec2 7 0); GCall 0 CVolume].
Proof. cbn. split; [repeat split; discriminate|]. intros (_ & _ & _ & H & _). now apply H. Qed.
