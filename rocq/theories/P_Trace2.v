(** Traces of multilinear geometries. *)
From Coq Require Import NArith PeanoNat Bool List Lia Reals Lra FunctionalExtensionality.
From Coquelicot Require Import Coquelicot.
From Verif Require Import M_Type M_RefTopo M_RefGeo P_Type P_Type2 S_Topo P_Topo P_RefTopo P_RefTopo2 P_RefTopo3 P_RSum P_RefGeo P_RefGeo2 P_RefGeo3 S_RefGeo P_RefGeo4 M_Matrix M_MultiLinear S_Matrix S_MultiLinear P_ML1 P_ML2 P_ML3 T_RefTopo T_MultiLinear P_Trace S_Trace.
Import ListNotations.
Local Open Scope R_scope.

(** ** the lowest bit of a topology id is irrelevant *)
Lemma shiftr_testbit a b d : N.shiftr a 1 = N.shiftr b 1 -> N.testbit a (N.of_nat (S d)) = N.testbit b (N.of_nat (S d)).
Proof.
  intro H. replace (N.of_nat (S d)) with (N.of_nat d + 1)%N by lia.
  rewrite <- !N.shiftr_spec by lia. now rewrite H.
Qed.
Lemma shiftr_lt a b : N.shiftr a 1 = N.shiftr b 1 -> forall d, lt a d = lt b d.
Proof.
  intro H. induction d; [reflexivity|]. rewrite !lt_S, IHd. destruct d; [now rewrite !orb_true_r|].
  now rewrite (shiftr_testbit a b d H).
Qed.
Lemma shiftr_lor a b : N.shiftr a 1 = N.shiftr b 1 -> N.lor a 1 = N.lor b 1.
Proof.
  intro H. apply N.bits_inj. intro n. rewrite !N.lor_spec. destruct (N.eq_dec n 0) as [->|E]; [now rewrite !orb_true_r|].
  replace n with (N.of_nat (S (N.to_nat (n - 1)))) by lia. now rewrite (shiftr_testbit a b _ H).
Qed.
Lemma topo_Pt_iff a d : topo_of a d = Pt <-> d = 0%nat.
Proof. split; [apply topo_Pt|now intros ->]. Qed.
Lemma shiftr_regular tol a b : N.shiftr a 1 = N.shiftr b 1 -> forall d x, regular tol (topo_of a d) x -> regular tol (topo_of b d) x.
Proof.
  intro H. induction d as [|d IH]; intros x R; [exact I|]. rewrite topo_S in *. destruct d as [|d].
  - destruct (N.testbit b _); cbn [topo_of regular]; auto.
  - rewrite <- (shiftr_testbit a b d H). destruct (N.testbit a (N.of_nat (S d))); cbn [regular] in *; [now apply IH|].
    rewrite topo_Pt_iff, tdim_topo in *. destruct R as [R|[R|[R1 R2]]]; auto.
Qed.
Lemma shiftr_smooth tol a b : N.shiftr a 1 = N.shiftr b 1 -> forall d x, smooth tol (topo_of a d) x -> smooth tol (topo_of b d) x.
Proof.
  intro H. induction d as [|d IH]; intros x R; [exact I|]. rewrite topo_S in *. destruct d as [|d].
  - destruct (N.testbit b _); cbn [topo_of smooth]; auto.
  - rewrite <- (shiftr_testbit a b d H). destruct (N.testbit a (N.of_nat (S d))); cbn [smooth] in *; [now apply IH|].
    rewrite topo_Pt_iff, tdim_topo in *. destruct R as [R|[R1 R2]]; auto.
Qed.
Lemma shiftr_shape a b : N.shiftr a 1 = N.shiftr b 1 -> forall d x i, shape (topo_of a d) x i = shape (topo_of b d) x i.
Proof. intros H d x i. rewrite <- !shape_lt. now rewrite (shiftr_lt a b H). Qed.
Lemma shiftr_nv a b : N.shiftr a 1 = N.shiftr b 1 -> forall d, nv (topo_of a d) = nv (topo_of b d).
Proof. intros H d. rewrite <- !nv_lt. now rewrite (shiftr_lt a b H). Qed.

Lemma gt_eqb_shiftr a b d : gt_eqb (GT2 a d) (GT2 b d) = true -> N.shiftr a 1 = N.shiftr b 1.
Proof.
  unfold gt_eqb, GT2. cbn [gt_none gt_dim gt_id Bool.eqb orb andb]. rewrite andb_true_iff. intros [_ H]. now apply N.eqb_eq.
Qed.

(** ** subentity geometries *)
Section Sub.
Context (mydim : nat) (g : MLGeo) (wf : ml_wf mydim g) (i c : nat) (g' : MLGeo) (SG : sub_geometry mydim g i c g').
Notation T := (topo_of (ml_id g) mydim).

Lemma sub_face : exists f, is_face T f /\ fcod T f = c /\ fidx T f = i
  /\ re_geometry (ml_id g) mydim c i = Some (fpair T f)
  /\ N.shiftr (ml_id g') 1 = N.shiftr (subTopologyId (ml_id g) mydim c i) 1
  /\ topo_of (subTopologyId (ml_id g) mydim c i) (mydim - c) = ftype T f
  /\ tdim (ftype T f) = (mydim - c)%nat
  /\ (forall y, emb_global (mydim - c) (fpair T f) y = Emb T f y)
  /\ nv (topo_of (ml_id g') (mydim - c)) = nv (ftype T f)
  /\ (forall j, (j < nv (ftype T f))%nat -> nth j (ml_corners g') vzero = nth (vmap T f j) (ml_corners g) vzero).
Proof.
  destruct SG as (Hc & Hi & wf' & t & vs & ET & EQ & ES & EC). destruct wf as (W1 & W2 & W3).
  destruct (re_type_face _ _ _ _ _ _ W1 W2 Hc Hi ET) as (f & F1 & F2 & F3 & F4 & F5 & F6).
  destruct (sub_data (ml_id g) mydim c i W1 Hc) as (f' & F1' & F2' & F3' & F4' & _).
  { rewrite size_tsize by assumption. rewrite <- (ok_re_size _ _ _ (re_infos_ok _ _ _ W1 W2)) by assumption. exact Hi. }
  assert (f' = f).
  { pose proof (fidx_nth _ _ F1) as A. pose proof (fidx_nth _ _ F1') as B. rewrite F2, F3 in A. rewrite F2', F3' in B. congruence. }
  subst f'. exists f. rewrite F4 in EQ. apply gt_eqb_shiftr in EQ.
  assert (TD : tdim (ftype T f) = (mydim - c)%nat) by (rewrite <- F5; apply tdim_topo).
  assert (NV : nv (topo_of (ml_id g') (mydim - c)) = nv (ftype T f)) by (rewrite <- F5; now apply shiftr_nv).
  repeat (split; [assumption|]). split; [intro y; now apply emb_global_Emb|]. split; [assumption|].
  intros j Hj. rewrite <- F2, <- F3 in ES. destruct (sub_corners mydim g wf f vs F1 ES) as (L & V).
  rewrite EC. rewrite (nth_indep _ vzero (nth 0 (ml_corners g) vzero)) by (rewrite map_length; lia).
  rewrite (map_nth (fun v => nth v (ml_corners g) vzero)). now rewrite V.
Qed.

Lemma sub_wf : ml_wf (mydim - c) g'. Proof. apply SG. Qed.

Lemma global_trace cdim tol jv jv' e y : 0 <= tol -> re_geometry (ml_id g) mydim c i = Some e ->
  regular tol T (emb_global (mydim - c) e y) ->
  exists u v, mlg_global mydim cdim tol jv g (emb_global (mydim - c) e y) = Some u /\
    mlg_global (mydim - c) cdim tol jv' g' y = Some v /\ veq cdim u v.
Proof.
  intros Ht He Hr. destruct sub_face as (f & F1 & F2 & F3 & F4 & F5 & F6 & F7 & F8 & F9 & F10).
  rewrite F4 in He. injection He as <-. rewrite F8 in *.
  destruct (global_regular mydim cdim tol Ht g wf jv _ Hr) as (u & EU & VU).
  assert (Hr' : regular tol (topo_of (ml_id g') (mydim - c)) y).
  { apply (shiftr_regular tol _ _ (eq_sym F5)). rewrite F6. now apply regular_trace. }
  destruct (global_regular (mydim - c) cdim tol Ht g' sub_wf jv' y Hr') as (v & EV & VV).
  exists u, v. split; [assumption|]. split; [assumption|]. intros k Hk. rewrite VU, VV, F9 by assumption.
  rewrite (shape_trace T f y (fun i => nth i (ml_corners g) vzero k) F1). apply rsum_ext. intros j Hj.
  rewrite F10 by assumption. f_equal. rewrite <- F6. symmetry. now apply shiftr_shape.
Qed.

Lemma jt_tol cdim tol jm jk h d x : 0 <= tol -> ml_wf d h -> smooth tol (topo_of (ml_id h) d) x ->
  mlg_jacobianTransposed d cdim tol jm jk h x = mlg_jacobianTransposed d cdim 0 jm jk h x.
Proof.
  intros Ht w S. rewrite !jt_value by assumption. f_equal. apply functional_extensionality. intro j.
  apply functional_extensionality. intro k. destruct (Nat.ltb j d && Nat.ltb k cdim)%bool; [|reflexivity].
  unfold comb. apply rsum_ext. intros l _. f_equal. apply dshapeC_tol; [assumption|]. now apply smooth_lt.
Qed.

Lemma jt_trace cdim tol jm jk jm' jk' e y : 0 <= tol -> re_geometry (ml_id g) mydim c i = Some e ->
  smooth tol T (emb_global (mydim - c) e y) ->
  smooth tol (topo_of (ml_id g') (mydim - c)) y /\
  exists J J', mlg_jacobianTransposed mydim cdim tol jm jk g (emb_global (mydim - c) e y) = Some J /\
    mlg_jacobianTransposed (mydim - c) cdim tol jm' jk' g' y = Some J' /\
    meq (mydim - c) cdim J' (mmul mydim (snd e) J).
Proof.
  intros Ht He Hs. destruct sub_face as (f & F1 & F2 & F3 & F4 & F5 & F6 & F7 & F8 & F9 & F10).
  pose proof He as He'. rewrite F4 in He'. injection He' as <-. pose proof Hs as Hs'. rewrite F8 in Hs'.
  assert (S' : smooth tol (topo_of (ml_id g') (mydim - c)) y).
  { apply (shiftr_smooth tol _ _ (eq_sym F5)). rewrite F6. now apply smooth_trace. }
  split; [exact S'|]. rewrite F8. rewrite (jt_tol cdim tol jm jk g mydim) by assumption.
  rewrite (jt_tol cdim tol jm' jk' g' (mydim - c)) by (assumption || apply sub_wf).
  pose proof (smooth_0 tol _ Ht _ Hs') as S0. pose proof (smooth_0 tol _ Ht _ S') as S0'.
  destruct (C31_partial_derivatives (mydim - c) cdim 0 (fun _ => 0) jm' jk' g' y (Rle_refl 0) sub_wf S0') as (G' & J' & EG' & EJ' & D').
  assert (HD : exists (G : Vec -> Vec) J, (forall x, mlg_global mydim cdim 0 (fun _ => 0) g x = Some (G x)) /\ mlg_jacobianTransposed mydim cdim 0 jm jk g (Emb T f y) = Some J).
  { eexists. eexists. split; [intro x; now apply global_spec|now apply jt_value]. }
  destruct HD as (G & J & EG & EJ). exists J, J'. split; [assumption|]. split; [assumption|].
  intros j k Hj Hk. specialize (D' j k Hj Hk).
  assert (UY : upd y j (y j) = y) by (apply functional_extensionality; intro l; unfold upd; destruct (Nat.eqb_spec l j); congruence).
  destruct (C31_derivative mydim cdim 0 (fun _ => 0) jm jk g (fun t => Emb T f (upd y j t)) (fun l => fjt T f j l) (y j) (Rle_refl 0) wf) as (G2 & J2 & EG2 & EJ2 & D2).
  - intros l Hl. unfold Emb, emb_global, fpair. cbn [fst snd].
    apply (is_derive_ext (fun t => (forg T f l + rsum (tdim (ftype T f)) (fun a => fjt T f a l * upd y j 0 a)) + t * fjt T f j l)).
    + intro t. rewrite Rplus_assoc. f_equal.
      rewrite <- (rsum_delta (tdim (ftype T f)) j (fun a => t * fjt T f a l)) by (rewrite F7; assumption).
      rewrite <- rsum_plus. apply rsum_ext. intros a _. unfold upd. destruct (Nat.eqb a j); lra.
    + auto_derive; [exact I|ring].
  - rewrite UY. exact S0.
  - specialize (D2 k Hk). rewrite UY, EJ in EJ2. injection EJ2 as <-.
    unfold mmul. cbn [fpair snd]. 
    assert (E2 : is_derive (fun t => G' (upd y j t) k) (y j) (rsum mydim (fun l => fjt T f j l * J l k)));
      [|rewrite <- (is_derive_unique _ _ _ D'); now apply is_derive_unique].
    revert D2. apply is_derive_ext. intro t. destruct (global_trace cdim 0 (fun _ => 0) (fun _ => 0) (fpair T f) (upd y j t) (Rle_refl 0) F4 (regular_0 _ _)) as (u & v & U & V & E).
    rewrite F8, EG2 in U. injection U as <-. rewrite EG' in V. injection V as <-. now apply E.
Qed.
End Sub.
