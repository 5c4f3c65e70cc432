(** The composite rule: the points of each element. *)
From Coq Require Import NArith ZArith PeanoNat Bool List Permutation Reals Factorial Lia Lra FunctionalExtensionality.
From Verif Require Import M_Type M_RefTopo M_RefGeo M_Quadrature S_Topo S_RefGeo S_Matrix S_MultiLinear S_Quad1D S_QuadND P_Type P_Topo P_RefTopo P_RSum P_RefGeo P_RefGeo2 P_RefGeo4 P_Det P_QuadProd P_QuadAll
  M_MultiLinear P_ML3 P_ML5 M_Refine S_Refine S_Refine2 P_Refine1 P_Refine2 P_Refine3 P_Refine4 P_Refine5 P_Refine6 P_Refine9 T_Refine P_KuhnInt P_KuhnInt2 P_KuhnInt3 P_KuhnInt4 M_Composite S_Composite.
Import ListNotations.
Local Open Scope R_scope.

Definition volChk : bool := forallb (fun dim => negb (referenceVolumeInverse 0 dim =? 0)%N && (referenceVolumeInverse 1 dim =? referenceVolumeInverse 0 dim)%N) (seq 0 35).
Lemma volChk_true : volChk = true. Proof. vm_compute. reflexivity. Qed.
Lemma refvol_ok : forall t dim, isSimplex t = true -> (dim <= 34)%nat ->
  referenceVolume (gt_id t) dim = referenceVolume simplexId dim /\ referenceVolume simplexId dim <> 0.
Proof.
  intros t dim H Hd. unfold isSimplex in H. apply andb_true_iff in H. destruct H as [_ H]. apply N.eqb_eq in H.
  assert (C : gt_id t = 0%N \/ gt_id t = 1%N) by (destruct (gt_id t) as [|[p|p|]]; cbn in H; auto; discriminate).
  pose proof (proj1 (forallb_forall _ _) volChk_true dim ltac:(apply in_seq; lia)) as K. apply andb_true_iff in K. destruct K as [K1 K2].
  apply N.eqb_eq in K2. apply negb_true_iff, N.eqb_neq in K1. unfold referenceVolume, simplexId. split.
  - destruct C as [-> | ->]; [reflexivity|]. rewrite K2. reflexivity.
  - unfold Rdiv. apply Rmult_integral_contrapositive. split; [lra|]. apply Rinv_neq_0_compat. apply not_0_IZR. lia.
Qed.

Section Comp.
Variables (dim : nat) (tol : R) (jv : Vec) (jm jk j1 j2 : Mat) (r : RefElement).
Hypothesis Hd : (0 < dim)%nat.
Hypothesis Ht : 0 < tol < 1 / 2.
Hypothesis Hr : re_infos simplexId dim = Some r.

(** the geometry of an element evaluates its affine map *)
Lemma elem_global : forall G d x, affdet dim G d -> evaluable dim tol x ->
  exists y, mlg_global dim dim tol jv {| ml_id := simplexId; ml_ref := r; ml_corners := map (fun i => G (sc i)) (seq 0 (dim + 1)) |} x = Some y /\ agree dim y (G x).
Proof.
  intros G d x HG N. destruct HG as (c & M & EG & D).
  set (g := {| ml_id := simplexId; ml_ref := r; ml_corners := _ |}).
  assert (wf : ml_wf dim g) by (apply simplex_wf; [assumption|rewrite map_length, seq_length; reflexivity]).
  assert (HA : corners_affine dim dim g c M).
  { intros i v p Hv Hp k Hk. cbn [ml_corners ml_id g] in Hv, Hp.
    assert (L : (i < length (map (fun i => G (sc i)) (seq 0 (dim + 1))))%nat) by (apply nth_error_Some; congruence).
    rewrite map_length, seq_length in L.
    assert (v = G (sc i)) by (rewrite <- (nth_map_seq (fun i => G (sc i)) (dim + 1) i (fun _ => 0) L); symmetry; apply nth_error_nth; exact Hv).
    subst v. rewrite EG by assumption. f_equal. apply rsum_ext. intros j Hj.
    assert (P := simplex_corner_pos dim r i ltac:(lia)). unfold re_position in P. rewrite Nat.eqb_refl in P.
    rewrite Hp in P. injection P as ->. ring. }
  assert (NI : nice dim tol g x).
  { destruct N as [N|[N1 N2]]; [apply nice_smooth; exact N|]. apply (nice_inside dim tol ltac:(lra) g x); [exact N1|exact N2]. }
  destruct (affine_global dim dim tol ltac:(lra) g wf jv c M x HA NI) as (y & E & V). exists y. split; [assumption|].
  intros k Hk. rewrite V, EG by assumption. f_equal. apply rsum_ext. intros. ring.
Qed.

Definition mapAt (n k : nat) : Vec -> Vec := Gmap dim (permAt dim n k) (se_origin (elemAt dim n k)) n.
(** copies of the rule with the points moved and the weights divided *)
Definition copyOf (n : nat) (G : Vec -> Vec) (quad l : list QPoint) : Prop :=
  Forall2 (fun q q' : QPoint => agree dim (fst q') (G (fst q)) /\ snd q' = / INR n ^ dim * snd q) quad l.
Lemma element_spec : forall n volume quad k, (0 < n)%nat -> (k < n ^ dim)%nat -> volume = referenceVolume simplexId dim -> volume <> 0 ->
  (forall q, In q quad -> evaluable dim tol (fst q)) ->
  exists l, comp_element dim tol jv jm jk j1 j2 r volume quad (elemAt dim n k) = Some l /\ copyOf n (mapAt n k) quad l.
Proof.
  intros n volume quad k Hn Hk EV NV HQ. destruct (elem_spec dim n k Hd Hn Hk) as (p & q & G & P & _).
  unfold comp_element. rewrite (se_geometry_eq dim r (elemAt dim n k) p G). cbn [obind]. cbn [se_origin se_size elemAt].
  change (candO dim (rs dim k)) with (se_origin (elemAt dim n k)).
  rewrite (simplex_volume dim r _ _ tol jm jk j1 j2 (affdet_Gmap dim p _ n P) (Gmap_injective dim p _ n P Hn) Ht Hr). cbn [obind].
  assert (N0 : 0 < INR n) by (apply lt_0_INR; assumption).
  assert (EW : Rabs ((/ INR n) ^ dim) * referenceVolume simplexId dim / volume = / INR n ^ dim).
  { rewrite Rabs_pos_eq by (apply pow_le, Rlt_le, Rinv_0_lt_compat; assumption). rewrite <- Rinv_pow by lra. rewrite EV in *.
    unfold Rdiv. rewrite Rmult_assoc, Rinv_r by assumption. ring. }
  rewrite EW. assert (EM : mapAt n k = Gmap dim p (se_origin (elemAt dim n k)) n) by (unfold mapAt, permAt; rewrite G; reflexivity).
  clear NV EV EW. induction quad as [|[x w] quad IH].
  - exists []. split; [reflexivity|constructor].
  - destruct IH as (l & E & C); [intros; apply HQ; right; assumption|].
    destruct (elem_global (Gmap dim p (se_origin (elemAt dim n k)) n) _ x (affdet_Gmap dim p _ n P) (HQ (x, w) (or_introl eq_refl))) as (y & Ey & A).
    exists ((y, / INR n ^ dim * w) :: l). split.
    + cbn [map sequence fst snd]. rewrite Ey. cbn [option_map obind]. rewrite E. reflexivity.
    + constructor; [|assumption]. cbn [fst snd]. rewrite EM. split; [assumption|reflexivity].
Qed.

(** the whole loop *)
Lemma loop_spec : forall fuel n volume quad, (0 < n)%nat -> (fact dim <= fuel)%nat -> volume = referenceVolume simplexId dim -> volume <> 0 ->
  (forall q, In q quad -> evaluable dim tol (fst q)) ->
  forall m rounds k, (k + m = n ^ dim)%nat -> (m <= rounds)%nat ->
  exists ls, comp_loop dim tol jv jm jk j1 j2 r fuel rounds n volume quad (elemAt dim n k) = Some (concat ls)
    /\ Forall2 (fun i l => copyOf n (mapAt n i) quad l) (seq k m) ls.
Proof.
  intros fuel n volume quad Hn F EV NV HQ.
  destruct (selements fuel dim n Hd Hn F) as (_ & St & En).
  induction m as [|m IH]; intros rounds k E L.
  - exists []. assert (k = n ^ dim)%nat by lia. subst k. split; [|constructor].
    destruct rounds; cbn [comp_loop]; unfold sx_nElements in En; rewrite En; reflexivity.
  - destruct rounds as [|rounds]; [lia|]. destruct (St k) as [S1 S2]; [unfold sx_nElements; lia|].
    destruct (IH rounds (k + 1)%nat ltac:(lia) ltac:(lia)) as (ls & E1 & C1).
    destruct (element_spec n volume quad k Hn ltac:(lia) EV NV HQ) as (l & E2 & C2).
    exists (l :: ls). split; [|constructor; [assumption|replace (S k) with (k + 1)%nat by lia; assumption]].
    cbn [comp_loop]. rewrite S1, E2. cbn [obind]. unfold ret in S2. destruct (se_increment fuel dim (elemAt dim n k)) as [s'| |]; try discriminate.
    injection S2 as ->. rewrite E1. reflexivity.
Qed.
End Comp.

Lemma copy_length : forall dim n G quad l, copyOf dim n G quad l -> length l = length quad.
Proof. intros dim n G quad l H. symmetry. induction H; cbn; congruence. Qed.
Lemma copy_quad : forall dim n G quad l f, copyOf dim n G quad l -> (forall x y, agree dim x y -> f x = f y) ->
  S_QuadND.quad l f = / INR n ^ dim * S_QuadND.quad quad (fun x => f (G x)).
Proof.
  intros dim n G quad l f H A. induction H as [|q q' l l' [H1 H2] H IH]; cbn [S_QuadND.quad]; [ring|].
  rewrite H2, IH, (A _ _ H1). ring.
Qed.
Lemma copies_length : forall dim n (F : nat -> Vec -> Vec) quad ks ls, Forall2 (fun i l => copyOf dim n (F i) quad l) ks ls ->
  length (concat ls) = (length ks * length quad)%nat.
Proof.
  intros dim n F quad ks ls H. induction H as [|k l ks ls H1 H IH]; cbn [concat length]; [reflexivity|].
  rewrite app_length, IH, (copy_length _ _ _ _ _ H1). lia.
Qed.
Lemma copies_quad : forall dim n (F : nat -> Vec -> Vec) quad ks ls f, Forall2 (fun i l => copyOf dim n (F i) quad l) ks ls -> (forall x y, agree dim x y -> f x = f y) ->
  S_QuadND.quad (concat ls) f = / INR n ^ dim * lsumR ks (fun k => S_QuadND.quad quad (fun x => f (F k x))).
Proof.
  intros dim n F quad ks ls f H A. induction H as [|k l ks ls H1 H IH]; cbn [concat S_QuadND.quad lsumR]; [ring|].
  rewrite quad_app, IH, (copy_quad _ _ _ _ _ _ H1 A). ring.
Qed.
Lemma copies_in : forall dim n (F : nat -> Vec -> Vec) quad ks ls q', Forall2 (fun i l => copyOf dim n (F i) quad l) ks ls -> In q' (concat ls) ->
  exists k q, In k ks /\ In q quad /\ agree dim (fst q') (F k (fst q)) /\ snd q' = / INR n ^ dim * snd q.
Proof.
  intros dim n F quad ks ls q' H I. induction H as [|k l ks ls H1 H IH]; cbn [concat] in I; [destruct I|].
  apply in_app_iff in I. destruct I as [I|I].
  - clear IH H. induction H1 as [|q q1 quad l H1 H IH]; [destruct I|]. destruct I as [<-|I].
    + exists k, q. split; [left; reflexivity|]. split; [left; reflexivity|assumption].
    + destruct (IH I) as (k' & q0 & I1 & I2 & I3). exists k', q0. split; [assumption|]. split; [right; assumption|assumption].
  - destruct (IH I) as (k' & q0 & I1 & I2 & I3). exists k', q0. split; [right; assumption|]. split; assumption.
Qed.
Lemma weightSum_quad : forall l, weightSum l = S_QuadND.quad l (fun _ => 1).
Proof. induction l as [|q l IH]; cbn; [reflexivity|]. rewrite IH. ring. Qed.

(** ** exactness *)
(** coordinates of the element maps as polynomials *)
Lemma map_inside : forall dim n k x, (0 < dim)%nat -> (0 < n)%nat -> (k < n ^ dim)%nat -> inSimplex dim x -> inSimplex dim (mapAt dim n k x).
Proof.
  intros dim n k x Hd Hn Hk S. destruct (elem_spec dim n k Hd Hn Hk) as (p & q & G & P & _).
  apply (elem_inside dim n k p _ Hd Hn Hk G). apply (elem_hull (Rle 0)); [lra|assumption|assumption|].
  exists x. split; [apply inSimplex_Q; assumption|]. unfold mapAt, permAt. rewrite G. intros i Hi. reflexivity.
Qed.
Lemma inSimplex_bound : forall dim x i, inSimplex dim x -> (i < dim)%nat -> 0 <= x i <= 1.
Proof.
  intros dim x i [S1 S2] Hi. split; [apply S1; assumption|]. rewrite Ssum_rsum in S2.
  assert (G : forall d, (d <= dim)%nat -> (i < d)%nat -> x i <= rsum d x).
  { induction d as [|d IH]; intros L L'; [lia|]. rewrite rsum_S. destruct (Nat.eq_dec i d) as [->|N].
    - assert (0 <= rsum d x) by (apply rsum_nonneg; intros; apply S1; lia). lra.
    - specialize (IH ltac:(lia) ltac:(lia)). specialize (S1 d ltac:(lia)). lra. }
  specialize (G dim (le_n dim) Hi). lra.
Qed.
Lemma unit_inSimplex : forall dim j, (j < dim)%nat -> inSimplex dim (fun i => if Nat.eqb i j then 1 else 0).
Proof.
  intros dim j Hj. split; [intros i Hi; destruct (Nat.eqb i j); lra|]. rewrite Ssum_rsum.
  pose proof (rsum_delta dim j (fun _ => 1) Hj) as E. cbv beta in E. rewrite E. lra.
Qed.
Lemma zero_inSimplex : forall dim, inSimplex dim (fun _ => 0).
Proof. intros dim. split; [intros; lra|]. rewrite Ssum_rsum, rsum_0 by reflexivity. lra. Qed.
Lemma polyd_rsum : forall d n p (f : nat -> Vec -> R) B, (forall i, (i < n)%nat -> polyd d p B (f i)) -> polyd d p (INR n * B) (fun x => rsum n (fun i => f i x)).
Proof.
  intros d n p f B. induction n as [|n IH]; intros H; cbn [rsum].
  - apply (polyd_weaken d 0 p (Rabs 0)); [apply polyd_const|lia|rewrite Rabs_R0; cbn; lra].
  - rewrite S_INR, Rmult_plus_distr_r, Rmult_1_l. apply (polyd_plus d p _ _ (fun x => rsum n (fun i => f i x)) (f n)); [apply IH; intros; apply H; lia|apply H; lia].
Qed.
Lemma map_poly : forall dim n k i, (0 < dim)%nat -> (0 < n)%nat -> (k < n ^ dim)%nat -> (i < dim)%nat -> polyd dim 1 (INR (dim + 1)) (fun x => mapAt dim n k x i).
Proof.
  intros dim n k i Hd Hn Hk Hi. destruct (elem_spec dim n k Hd Hn Hk) as (p & q & G & P & _).
  destruct (affdet_Gmap dim p (se_origin (elemAt dim n k)) n P) as (c & M & E & _).
  assert (EM : mapAt dim n k = Gmap dim p (se_origin (elemAt dim n k)) n) by (unfold mapAt, permAt; rewrite G; reflexivity).
  assert (C0 : 0 <= c i <= 1).
  { pose proof (inSimplex_bound dim _ i (map_inside dim n k _ Hd Hn Hk (zero_inSimplex dim)) Hi) as B. rewrite EM, E in B by assumption.
    rewrite (rsum_0 dim (fun j => 0 * M j i)) in B by (intros; ring). lra. }
  assert (CM : forall j, (j < dim)%nat -> Rabs (M j i) <= 1).
  { intros j Hj. pose proof (inSimplex_bound dim _ i (map_inside dim n k _ Hd Hn Hk (unit_inSimplex dim j Hj)) Hi) as B. rewrite EM, E in B by assumption.
    rewrite (rsum_ext dim _ (fun l => if Nat.eqb l j then M l i else 0)) in B by (intros l Hl; destruct (Nat.eqb l j); ring).
    rewrite rsum_delta in B by assumption. apply Rabs_le. lra. }
  rewrite EM. apply (polyd_ext dim 1 _ (fun x => c i + rsum dim (fun j => x j * M j i))); [|intros; apply E; assumption].
  rewrite plus_INR, Rplus_comm. cbn [INR]. apply (polyd_plus dim 1 1 (INR dim) (fun _ => c i) (fun x => rsum dim (fun j => x j * M j i))).
  - apply (polyd_weaken dim 0 1 (Rabs (c i))); [apply polyd_const|lia|rewrite Rabs_pos_eq; lra].
  - rewrite <- (Rmult_1_r (INR dim)). apply (polyd_rsum dim dim 1 (fun j x => x j * M j i) 1). intros j Hj.
    apply (polyd_weaken dim (1 + 0) 1 (1 * Rabs (M j i))); [|lia|rewrite Rmult_1_l; auto].
    apply (polyd_mult dim 1 0 1 (Rabs (M j i)) (fun x => x j) (fun _ => M j i)); [apply polyd_coord; assumption|apply polyd_const].
Qed.
Lemma lsumR_le {A} : forall (l : list A) f c, (forall a, In a l -> Rabs (f a) <= c) -> Rabs (lsumR l f) <= INR (length l) * c.
Proof.
  induction l as [|a l IH]; intros f c H; cbn [lsumR length]; [rewrite Rabs_R0; cbn; lra|].
  rewrite S_INR. eapply Rle_trans; [apply Rabs_triang|]. specialize (IH f c (fun b I => H b (or_intror I))). specialize (H a (or_introl eq_refl)). lra.
Qed.
Lemma lsumR_minus {A} : forall (l : list A) f g, lsumR l (fun a => f a - g a) = lsumR l f - lsumR l g.
Proof. induction l as [|a l IH]; intros; cbn; [ring|]. rewrite IH. ring. Qed.
Lemma comp_exact : forall dim n p err quad ls, (0 < dim)%nat -> (0 < n)%nat -> 0 <= err ->
  Forall2 (fun i l => copyOf dim n (mapAt dim n i) quad l) (seq 0 (n ^ dim)) ls ->
  exactND 0 (simT dim) p err quad -> exactND 0 (simT dim) p (err * INR (dim + 1) ^ p) (concat ls).
Proof.
  intros dim n p err quad ls Hd Hn He C H P D. rewrite tdim_simT in D |- *.
  assert (N0 : 0 < INR n) by (apply lt_0_INR; assumption). assert (NP : 0 < INR n ^ dim) by (apply pow_lt; assumption).
  rewrite (copies_quad _ _ _ _ _ _ (peval dim P) C) by (intros; apply peval_agree; assumption).
  assert (Q : IintW 0 (simT dim) (peval dim P) = / INR n ^ dim * lsumR (seq 0 (n ^ dim)) (fun k => SI dim (fun x => peval dim P (mapAt dim n k x)))).
  { rewrite lsumR_seq. unfold mapAt. rewrite (refine_integral dim n (peval dim P) Hd Hn) by (exists P; reflexivity). unfold SI. field. lra. }
  rewrite Q, <- Rmult_minus_distr_l, <- lsumR_minus, Rabs_mult, Rabs_pos_eq by (apply Rlt_le, Rinv_0_lt_compat; assumption).
  apply (Rmult_le_reg_l (INR n ^ dim)); [assumption|]. rewrite <- Rmult_assoc, Rinv_r, Rmult_1_l by lra.
  eapply Rle_trans; [apply (lsumR_le _ _ (err * (pnorm P * INR (dim + 1) ^ p)))|].
  - intros k I. apply in_seq in I.
    assert (B1 : 1 <= INR (dim + 1)) by (rewrite plus_INR; cbn [INR]; pose proof (pos_INR dim); lra).
    destruct (polyd_comp dim dim P p (mapAt dim n k) (INR (dim + 1)) B1 (fun i Hi => map_poly dim n k i Hd Hn ltac:(lia) Hi) D) as (P' & D' & N' & E').
    specialize (H P'). rewrite tdim_simT in H. specialize (H D').
    rewrite (quad_ext quad _ _ E'), (SI_ext dim _ _ E'). eapply Rle_trans; [exact H|]. apply Rmult_le_compat_l; assumption.
  - rewrite seq_length, pow_INR. right. ring.
Qed.
