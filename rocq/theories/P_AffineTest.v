(** First corners of the reference elements; the constructor of AffineGeometry from corners. *)
From Coq Require Import PeanoNat NArith ZArith Bool List Reals Lia Lra.
From Verif Require Import M_Type M_RefTopo M_RefGeo M_Matrix M_Affine M_MultiLinear M_GaussNewton M_LocalFE M_CheckGeo M_AffineTest
  S_Topo S_RefGeo S_Matrix S_MultiLinear S_GaussNewton S_Agree S_CheckGeo S_AffineTest P_Type P_Topo P_RefTopo P_RefTopo2 P_RefTopo3 P_RSum P_RefGeo P_RefGeo2 P_RefGeo3 P_RefGeo4
  P_Matrix P_Matrix2 P_Matrix3 P_Matrix4 P_Matrix5 P_Det P_MxBridge P_Affine
  P_ML1 P_ML2 P_ML3 P_ML4 P_ML5 P_GaussNewton P_Agree P_LocalFE T_RefGeo T_Matrix T_Affine T_MultiLinear T_GaussNewton T_LocalFE P_Agree2 T_Agree P_CheckGeo T_CheckGeo P_RefDet P_Refine4.
Import ListNotations.
Local Open Scope R_scope.

Lemma simplex_rc id : forall d, (forall j, (1 <= j)%nat -> (j < d)%nat -> N.testbit id (N.of_nat j) = false) ->
  nv (topo_of id d) = S d /\ forall i j, (i <= d)%nat -> rc (topo_of id d) i j = if Nat.eqb i (S j) then 1 else 0.
Proof.
  induction d as [|d IH]; intro H.
  - split; [reflexivity|]. intros i j Hi. replace i with 0%nat by lia. reflexivity.
  - destruct IH as [N1 R1]; [intros; apply H; lia|]. rewrite topo_S.
    assert (T : forall i j, (i <= S d)%nat -> (if Nat.ltb i (nv (topo_of id d)) then rc (topo_of id d) i else upd vzero (tdim (topo_of id d)) 1) j = if Nat.eqb i (S j) then 1 else 0).
    { intros i j Hi. rewrite N1, tdim_topo. destruct (Nat.ltb_spec i (S d)); [apply R1; lia|]. replace i with (S d) by lia. unfold upd, vzero. cbn [Nat.eqb]. rewrite Nat.eqb_sym.
      destruct (Nat.eqb_spec d j); [reflexivity|reflexivity]. }
    destruct (N.testbit id (N.of_nat d)) eqn:B.
    + destruct d as [|d]; [|rewrite H in B by lia; discriminate]. split; [reflexivity|]. intros i j Hi. rewrite <- T by assumption. cbn [topo_of rc nv tdim].
      destruct (Nat.ltb_spec i 1); [reflexivity|]. reflexivity.
    + split; [cbn [nv]; lia|]. intros i j Hi. cbn [rc]. now apply T.
Qed.
Lemma base_rc id dim : simplexBase id dim -> (dim < nv (topo_of id dim))%nat /\ forall i j, (i <= dim)%nat -> rc (topo_of id dim) i j = if Nat.eqb i (S j) then 1 else 0.
Proof.
  intro H. destruct dim as [|d]; [split; [cbn; lia|]; intros i j Hi; replace i with 0%nat by lia; reflexivity|].
  destruct (simplex_rc id d) as [N1 R1]; [intros; apply H; lia|]. rewrite topo_S. destruct (N.testbit id (N.of_nat d)); cbn [nv rc].
  - split; [lia|]. intros i j Hi. rewrite N1, tdim_topo. destruct (Nat.ltb_spec i (S d)); [apply R1; lia|]. replace i with (S d) by lia. rewrite Nat.sub_diag.
    unfold upd. rewrite R1 by lia. cbn [Nat.eqb]. rewrite (Nat.eqb_sym d j). destruct (Nat.eqb j d); reflexivity.
  - split; [lia|]. intros i j Hi. rewrite N1, tdim_topo. destruct (Nat.ltb_spec i (S d)); [apply R1; lia|]. replace i with (S d) by lia.
    unfold upd, vzero. cbn [Nat.eqb]. rewrite (Nat.eqb_sym d j). destruct (Nat.eqb j d); reflexivity.
Qed.
Lemma nv_ge id : forall d, (S d <= nv (topo_of id d))%nat.
Proof. induction d as [|d IH]; [reflexivity|]. rewrite topo_S. destruct (N.testbit id (N.of_nat d)); cbn [nv]; lia. Qed.
Lemma nv_more id j : (1 <= j)%nat -> N.testbit id (N.of_nat j) = true -> forall d, (j < d)%nat -> (S (S d) <= nv (topo_of id d))%nat.
Proof.
  intros Hj B. induction d as [|d IH]; [lia|]. intro H. rewrite topo_S. destruct (Nat.eq_dec j d) as [->|].
  - rewrite B. cbn [nv]. pose proof (nv_ge id d). lia.
  - specialize (IH ltac:(lia)). destruct (N.testbit id (N.of_nat d)); cbn [nv]; lia.
Qed.
Lemma rc_out T : forall i j, (tdim T <= j)%nat -> rc T i j = 0.
Proof.
  induction T as [|b IH|b IH]; intros i j H; cbn [rc tdim] in *; [reflexivity| |].
  - destruct (Nat.ltb i (nv b)); [apply IH; lia|]. unfold upd. destruct (Nat.eqb_spec j (tdim b)); [lia|]. apply IH. lia.
  - destruct (Nat.ltb i (nv b)); [apply IH; lia|]. unfold upd. destruct (Nat.eqb_spec j (tdim b)); [lia|reflexivity].
Qed.
(** otherwise the first dim+1 corners lie in the base *)
Lemma nobase_rc id dim : ~ simplexBase id dim -> (3 <= dim)%nat /\ forall i, (i <= dim)%nat -> rc (topo_of id dim) i (dim - 1)%nat = 0.
Proof.
  intro H. assert (E : exists j, (1 <= j)%nat /\ (S j < dim)%nat /\ N.testbit id (N.of_nat j) = true).
  { apply Classical_Prop.NNPP. intro C. apply H. intros j H1 H2. destruct (N.testbit id (N.of_nat j)) eqn:B; [|reflexivity]. exfalso. apply C. eauto. }
  destruct E as (j & H1 & H2 & B). destruct dim as [|d]; [lia|]. split; [lia|]. pose proof (nv_more id j H1 B d ltac:(lia)) as K. intros i Hi.
  rewrite topo_S. replace (S d - 1)%nat with d by lia.
  destruct (N.testbit id (N.of_nat d)); cbn [rc]; (destruct (Nat.ltb_spec i (nv (topo_of id d))); [|lia]); apply rc_out; rewrite tdim_topo; lia.
Qed.

(** the corners are the images of the reference corners *)
Definition images (mydim cdim : nat) (id : N) (o : Vec) (M : Mat) (coords : list Vec) : Prop :=
  forall i p, nth_error (referenceCorners id mydim) i = Some p -> exists c, nth_error coords i = Some c /\ veq cdim c (aff mydim o M p).
Lemma ref_nth id dim i : (i < nv (topo_of id dim))%nat -> nth_error (referenceCorners id dim) i = Some (rc (topo_of id dim) i).
Proof. intro H. rewrite <- rc_corner by assumption. apply nth_error_nth'. now rewrite <- nv_size. Qed.

Section Corners.
Variables (mydim cdim : nat) (id : N) (r : RefElement) (o : Vec) (M : Mat) (coords : list Vec) (junk ret j1 j2 : Mat).
Hypothesis Hm : (mydim <= cdim)%nat.
Hypothesis HI : images mydim cdim id o M coords.

Lemma aff_diff p q k : aff mydim o M p k - aff mydim o M q k = rsum mydim (fun j => M j k * (p j - q j)).
Proof. unfold aff. rewrite (rsum_ext mydim (fun j => M j k * (p j - q j)) (fun j => M j k * p j - M j k * q j)) by (intros; ring). rewrite rsum_minus. ring. Qed.
Lemma first_rows : exists o' jt, affine_from_corners mydim cdim id r coords junk ret j1 j2 = affine_from_jacobian mydim cdim id r o' jt ret j1 j2
  /\ veq cdim o' (aff mydim o M (rc (topo_of id mydim) 0))
  /\ meq mydim cdim jt (fun i k => rsum mydim (fun j => M j k * (rc (topo_of id mydim) (S i) j - rc (topo_of id mydim) 0 j))).
Proof.
  pose proof (nv_ge id mydim) as NV. set (T := topo_of id mydim) in *.
  destruct (HI 0%nat _ (ref_nth id mydim 0 ltac:(fold T; lia))) as (o' & Eo & Vo). exists o'.
  assert (L : (mydim < length coords)%nat).
  { destruct (HI mydim _ (ref_nth id mydim mydim ltac:(fold T; lia))) as (c & Ec & _). apply nth_error_Some. congruence. }
  destruct (corner_rows_ok coords o' junk mydim L) as [jt E]. exists jt. split.
  { unfold affine_from_corners. rewrite Eo. cbn [obind]. rewrite E. reflexivity. }
  split; [exact Vo|]. intros i k Hi Hk. destruct (corner_rows_spec _ _ _ _ _ E i Hi) as (c & Ec & Hc). rewrite Hc.
  destruct (HI (S i) _ (ref_nth id mydim (S i) ltac:(fold T; lia))) as (c' & Ec' & Vc). rewrite Ec in Ec'. injection Ec' as <-.
  rewrite Vc, Vo by assumption. apply aff_diff.
Qed.
Lemma corners_base : simplexBase id mydim -> row_independent mydim cdim M -> exists g o' M', affine_from_corners mydim cdim id r coords junk ret j1 j2 = Some g
  /\ affine_from_jacobian mydim cdim id r o' M' ret j1 j2 = Some g /\ veq cdim o' o /\ meq mydim cdim M' M /\ row_independent mydim cdim M'.
Proof.
  intros HS HR. destruct first_rows as (o' & jt & E & Vo & Vj). destruct (base_rc id mydim HS) as [_ RC].
  assert (Vm : meq mydim cdim jt M).
  { intros i k Hi Hk. rewrite Vj by assumption. rewrite (rsum_ext mydim _ (fun j => if Nat.eqb j i then M j k else 0)).
    - now apply (rsum_delta mydim i (fun j => M j k)).
    - intros j Hj. rewrite !RC by lia. cbn [Nat.eqb]. rewrite Nat.eqb_sym. destruct (Nat.eqb j i); ring. }
  assert (R' : row_independent mydim cdim jt) by (exact (rowind_meq _ _ _ _ (fun i j Hi Hj => eq_sym (Vm i j Hi Hj)) HR)).
  destruct (affine_from_jacobian_ok mydim cdim id r o' jt ret j1 j2 Hm R') as (g & Eg & _).
  exists g, o', jt. split; [now rewrite E|]. split; [assumption|]. split; [|now split].
  intros k Hk. rewrite Vo by assumption. unfold aff. rewrite rsum_0; [ring|]. intros j Hj. rewrite RC by lia. cbn [Nat.eqb]. ring.
Qed.
Lemma corners_nobase : ~ simplexBase id mydim -> affine_from_corners mydim cdim id r coords junk ret j1 j2 = None.
Proof.
  intro HS. destruct first_rows as (o' & jt & E & Vo & Vj). destruct (nobase_rc id mydim HS) as [D3 RC]. rewrite E.
  assert (NR : ~ row_independent mydim cdim jt).
  { intro HR. destruct (C25_right_inverse mydim cdim jt mzero mzero mzero Hm HR) as (d & X & _ & HX).
    set (P := (fun i j => rc (topo_of id mydim) (S i) j - rc (topo_of id mydim) 0 j) : Mat).
    assert (Q : meq mydim mydim (mmul mydim P (mmul cdim M X)) mone).
    { intros i j Hi Hj. rewrite <- (HX i j Hi Hj). unfold mmul. rewrite (rsum_ext cdim (fun k => jt i k * X k j) (fun k => rsum mydim (fun l => P i l * (M l k * X k j)))).
      - rewrite rsum_swap. apply rsum_ext. intros l Hl. symmetry. apply rsum_scal.
      - intros k Hk. rewrite Vj by assumption. rewrite Rmult_comm, <- rsum_scal. apply rsum_ext. intros l Hl. unfold P. ring. }
    apply minv_comm in Q. specialize (Q (mydim - 1)%nat (mydim - 1)%nat ltac:(lia) ltac:(lia)). unfold mone in Q. rewrite Nat.eqb_refl in Q.
    unfold mmul at 1 in Q. rewrite rsum_0 in Q; [lra|]. intros k Hk. unfold P. rewrite !RC by lia. ring. }
  unfold affine_from_jacobian, rightInvA. destruct (Nat.eqb_spec mydim 2) as [|_]; [lia|]. rewrite andb_false_r. unfold spdInvA.
  rewrite (proj1 (C24_cholesky_assertion mydim (AAT_L mydim cdim jt j1) (mmul cdim jt (mtr jt)) j2 (gram_sym mydim cdim jt) (AAT_lower mydim cdim jt j1 Hm))); [reflexivity|].
  intro S; apply NR; now apply spd_gram.
Qed.
End Corners.

(** checkGeometry on an AffineGeometry, whatever the quadrature points are *)
Lemma point_affine mydim cdim tolc g x : ag_ok mydim cdim g -> 0 < tolc -> point_passes mydim cdim tolc (gi_ag mydim g) (fun y => Some (ag_local cdim g y)) (ag_id g) x.
Proof.
  intros OK Ht. exists (ag_global mydim g x), (ag_local cdim g (ag_global mydim g x)), (ag_jt g), (ag_jit g), (ag_jacobian g x), (ag_jacobianInverse g x), (ag_intel g).
  split; [reflexivity|]. split; [reflexivity|]. split.
  { unfold vdist. rewrite two_norm_0; [lra|]. intros k Hk. rewrite (ag_local_global mydim cdim g x k OK Hk). ring. }
  do 4 (split; [reflexivity|]). assert (Z : forall a b, a = b -> Rabs (a - b) < tolc) by (intros a b ->; rewrite Rminus_diag_eq, Rabs_R0 by reflexivity; exact Ht). split; [|split].
  - intros i j Hi Hj. apply Z. now apply (ao_inv _ _ _ OK).
  - intros i j Hi Hj. apply Z. transitivity (mone j i); [|unfold mone; now rewrite Nat.eqb_sym]. rewrite <- (ao_inv _ _ _ OK j i Hj Hi). unfold mmul, ag_jacobianInverse, ag_jacobian. apply rsum_ext. intros; ring.
  - split; [intros i j _ _; reflexivity|]. split; [intros i j _ _; reflexivity|]. split; [reflexivity|]. pose proof (ao_pos _ _ _ OK). split; [lra|]. split.
    + rewrite <- (ao_sq _ _ _ OK), sqrt_square by lra. rewrite Rminus_diag_eq, Rabs_R0 by reflexivity. lra.
    + exists true. split; [reflexivity|]. intros _. eexists. split; [reflexivity|]. unfold ag_volume. rewrite Rminus_diag_eq, Rabs_R0 by ring. lra.
Qed.
Lemma check_affine mydim cdim tolc junk id r o M ret j1 j2 g c q : (mydim <= cdim)%nat -> (mydim < 256)%nat -> (id < 2 ^ N.of_nat mydim)%N -> re_infos id mydim = Some r ->
  row_independent mydim cdim M -> affine_from_jacobian mydim cdim id r o M ret j1 j2 = Some g -> 0 < tolc -> re_position id mydim r 0 0 = Some c ->
  checkGeometry mydim cdim tolc junk (gi_ag mydim g) (fun y => Some (ag_local cdim g y)) (detR mydim) (Some q) = Some true <->
    tolc <= ag_volume mydim g /\ ((0 < mydim)%nat -> forall i p, nth_error (referenceCorners id mydim) i = Some p ->
                     tolc < two_norm cdim (mvec mydim (mtr M) (fun j => p j - c j))).
Proof.
  intros Hm Hd Hid Hr HR E Ht Hc.
  rewrite <- (C82_affine_classes mydim cdim (1/4) tolc junk id r o M false (gi_ag mydim g) (fun y => Some (ag_local cdim g y)) c [] (ag_volume mydim g) Hm Hd ltac:(lra) Hid Hr HR);
    [|now apply (CI_affine _ _ _ _ _ _ _ ret j1 j2)|assumption|assumption|reflexivity|intros x w []].
  destruct (affine_from_jacobian_inv _ _ _ _ _ _ _ _ _ g Hm HR E) as (EI & _ & _ & _ & OK).
  rewrite !C82_check. unfold passes. cbv zeta. split; intros (cs & m & vol & H1 & H2 & H3 & H4 & H5 & H6 & H7); exists cs, m, vol; do 6 (split; [assumption|]); right;
    (destruct H7 as [H7|(r' & p & y & K1 & K2 & K3 & K4 & K5 & K6 & K7)]; [discriminate H7|]); exists r', p, y; do 6 (split; [assumption|]).
  - exists []. split; [reflexivity|]. intros x w [].
  - exists q. split; [reflexivity|]. intros x w _. cbn [gi_ag gi_type GT2 gt_id]. now apply point_affine.
Qed.

(** ** the test *)
Definition taM (mydim : nat) (A B : Mat) : Mat := fun i k => rsum mydim (fun j => B k j * A j i).
Lemma rsum_prefix f : forall m n, (m <= n)%nat -> rsum n (fun j => if Nat.ltb j m then f j else 0) = rsum m f.
Proof.
  intros m n H. induction n as [|n IH].
  - replace m with 0%nat by lia. reflexivity.
  - destruct (Nat.eq_dec m (S n)) as [->|].
    + apply rsum_ext. intros j Hj. destruct (Nat.ltb_spec j (S n)); [reflexivity|lia].
    + cbn [rsum]. rewrite IH by lia. destruct (Nat.ltb_spec n m); [lia|]. ring.
Qed.
Lemma embed_value n (v : Vec) j : forN n (fun j e => upd e j (v j)) vzero j = if Nat.ltb j n then v j else 0.
Proof.
  induction n as [|n IH]; [reflexivity|]. cbn [forN]. set (F := forN n _ _) in *. unfold upd. rewrite IH. destruct (Nat.eqb_spec j n) as [->|].
  - destruct (Nat.ltb_spec n (S n)); [reflexivity|lia].
  - destruct (Nat.ltb_spec j n), (Nat.ltb_spec j (S n)); try lia; reflexivity.
Qed.
Lemma ta_map_value mydim cdim A B x k : (mydim <= cdim)%nat -> ta_map mydim cdim A B x k = aff mydim vzero (taM mydim A B) x k.
Proof.
  intro Hm. unfold ta_map. unfold mv at 1. rewrite (rsum_ext cdim _ (fun j => if Nat.ltb j mydim then B k j * mv mydim mydim A x j else 0)).
  2:{ intros j Hj. rewrite embed_value. destruct (Nat.ltb j mydim); ring. }
  rewrite rsum_prefix by assumption. unfold aff, taM, mv, vzero.
  rewrite (rsum_ext mydim (fun i => rsum mydim (fun j => B k j * A j i) * x i) (fun i => rsum mydim (fun j => B k j * (A j i * x i)))).
  2:{ intros i Hi. rewrite Rmult_comm, <- rsum_scal. apply rsum_ext. intros; ring. }
  rewrite rsum_swap. rewrite Rplus_0_l. apply rsum_ext. intros j Hj. symmetry. apply rsum_scal.
Qed.
Lemma skipn_step {X} : forall (l : list X) i p, nth_error l i = Some p -> skipn i l = p :: skipn (S i) l.
Proof. induction l as [|a l IH]; intros [|i] p H; try discriminate; cbn in *; [now injection H as ->|]. now apply IH. Qed.
Lemma ta_corners_value mydim cdim id r A B : forall n i, (i + n = length (referenceCorners id mydim))%nat ->
  ta_corners mydim cdim id r A B n i = Some (map (ta_map mydim cdim A B) (skipn i (referenceCorners id mydim))).
Proof.
  induction n as [|n IH]; intros i Hi; cbn [ta_corners].
  - rewrite skipn_all2 by lia. reflexivity.
  - unfold re_position. rewrite Nat.eqb_refl. destruct (nth_error (referenceCorners id mydim) i) as [p|] eqn:E; [|apply nth_error_None in E; lia]. cbn [obind].
    rewrite IH by lia. cbn [obind]. f_equal. rewrite (skipn_step _ i p E). reflexivity.
Qed.
Lemma ta_images mydim cdim id A B : (mydim <= cdim)%nat -> images mydim cdim id vzero (taM mydim A B) (map (ta_map mydim cdim A B) (referenceCorners id mydim)).
Proof. intros Hm i p Hp. exists (ta_map mydim cdim A B p). split; [now rewrite nth_error_map, Hp|]. intros k Hk. now apply ta_map_value. Qed.
Lemma ta_rows_value mydim cdim eps A B JT : (mydim <= cdim)%nat -> 0 <= eps -> meq mydim cdim JT (taM mydim A B) -> forall b, ta_rows mydim cdim eps A B JT b = b.
Proof.
  intros Hm He H b. unfold ta_rows.
  assert (G : forall n, (n <= mydim)%nat -> forN n (fun i pass => if Rltb eps (two_norm cdim (fun k => ta_map mydim cdim A B (upd vzero i 1) k - JT i k)) then false else pass) b = b).
  { induction n as [|n IH]; [reflexivity|]. intro Hn. cbn [forN]. rewrite IH by lia. rewrite two_norm_0.
    - unfold Rltb. destruct (Rlt_dec eps 0); [lra|reflexivity].
    - intros k Hk. rewrite H by (assumption || lia). rewrite ta_map_value by assumption. unfold aff. rewrite (rsum_ext mydim _ (fun j => if Nat.eqb j n then taM mydim A B j k else 0)).
      + rewrite (rsum_delta mydim n (fun j => taM mydim A B j k)) by lia. unfold vzero. ring.
      + intros j Hj. unfold upd, vzero. destruct (Nat.eqb j n); ring. }
  apply G. lia.
Qed.
Lemma Rltb_false a b : Rltb a b = false <-> b <= a.
Proof. unfold Rltb. destruct (Rlt_dec a b); split; intro; try discriminate; try lra; reflexivity. Qed.

(** ** an orthogonal B *)
Section Orthogonal.
Variables (m n : nat) (A B : Mat).
Hypothesis Hm : (m <= n)%nat.
Hypothesis HB : meq n n (mmul n (mtr B) B) mone.
Lemma iso_dual (w : Vec) j : (j < m)%nat -> rsum n (fun k => B k j * rsum m (fun j' => B k j' * w j')) = w j.
Proof.
  intro Hj. rewrite (rsum_ext n _ (fun k => rsum m (fun j' => B k j * B k j' * w j'))).
  2:{ intros k Hk. rewrite <- rsum_scal. apply rsum_ext. intros; ring. }
  rewrite rsum_swap. rewrite (rsum_ext m _ (fun j' => if Nat.eqb j' j then w j' else 0)); [now apply (rsum_delta m j (fun j' => w j'))|].
  intros j' Hj'. transitivity (mone j j' * w j'); [|unfold mone; rewrite Nat.eqb_sym; destruct (Nat.eqb j' j); ring].
  rewrite <- (HB j j') by lia. unfold mmul, mtr. rewrite Rmult_comm, <- rsum_scal. apply rsum_ext. intros; ring.
Qed.
Lemma iso (u w : Vec) : rsum n (fun k => rsum m (fun j => B k j * u j) * rsum m (fun j => B k j * w j)) = rsum m (fun j => u j * w j).
Proof.
  rewrite (rsum_ext n _ (fun k => rsum m (fun j => u j * (B k j * rsum m (fun j' => B k j' * w j'))))).
  2:{ intros k Hk. rewrite Rmult_comm, <- rsum_scal. apply rsum_ext. intros; ring. }
  rewrite rsum_swap. apply rsum_ext. intros j Hj. rewrite rsum_scal. now rewrite iso_dual.
Qed.
Lemma ta_gram : meq m m (mmul n (taM m A B) (mtr (taM m A B))) (mmul m (mtr A) A).
Proof. intros i j Hi Hj. unfold mmul, mtr, taM. apply (iso (fun l => A l i) (fun l => A l j)). Qed.
Lemma ta_apply v k : mvec m (mtr (taM m A B)) v k = rsum m (fun j => B k j * mvec m A v j).
Proof.
  unfold mvec, mtr, taM. rewrite (rsum_ext m (fun i => rsum m (fun j => B k j * A j i) * v i) (fun i => rsum m (fun j => B k j * (A j i * v i)))).
  - rewrite rsum_swap. apply rsum_ext. intros j Hj. apply rsum_scal.
  - intros i Hi. rewrite Rmult_comm, <- rsum_scal. apply rsum_ext. intros; ring.
Qed.
Lemma ta_norm v : two_norm n (mvec m (mtr (taM m A B)) v) = two_norm m (mvec m A v).
Proof.
  unfold two_norm, norm2. f_equal. rewrite <- (iso (mvec m A v) (mvec m A v)). apply rsum_ext. intros k Hk. now rewrite ta_apply.
Qed.
Lemma ta_det : sqrt (detR m (mmul n (taM m A B) (mtr (taM m A B)))) = Rabs (detR m A).
Proof.
  rewrite (@detR_ext m _ (mmul m (mtr A) A) ta_gram). unfold mmul. rewrite detR_mul. unfold mtr. rewrite (detR_tr m A). apply sqrt_Rsqr_abs.
Qed.
Lemma ta_independent : col_independent m m A -> row_independent m n (taM m A B).
Proof.
  intros HA w Hw. apply HA. intros i Hi. rewrite <- (iso_dual (mvec m A w) i Hi). apply rsum_0. intros k Hk. rewrite <- ta_apply, Hw by assumption. ring.
Qed.
Lemma orth_det : Rabs (detR n B) = 1.
Proof.
  assert (E : detR n B * detR n B = 1).
  { transitivity (detR n (mmul n (mtr B) B)).
    - unfold mmul. rewrite detR_mul. unfold mtr. now rewrite (detR_tr n B).
    - rewrite (@detR_ext n _ _ HB), <- (detR_midentity n). apply (@detR_ext n). intros i j Hi Hj. rewrite midentity_eq by assumption. reflexivity. }
  rewrite <- sqrt_Rsqr_abs. unfold Rsqr. rewrite E. apply sqrt_1.
Qed.
End Orthogonal.

(** ** distance of the corners from the centre *)
Lemma last_sum T : match T with Pt => True | Pri b => rsum (nv T) (fun i => rc T i (tdim b)) = INR (nv b) | Pyr b => rsum (nv T) (fun i => rc T i (tdim b)) = 1 end.
Proof.
  destruct T as [|b|b]; [exact I| |]; cbn [nv]; rewrite rsum_app.
  - rewrite rsum_0, (rsum_ext (nv b) _ (fun _ => 1)), rsum_const; [ring| |].
    + intros i Hi. cbn [rc]. destruct (Nat.ltb_spec (nv b + i) (nv b)); [lia|]. unfold upd. now rewrite Nat.eqb_refl.
    + intros i Hi. cbn [rc]. destruct (Nat.ltb_spec i (nv b)); [|lia]. apply rc_out. lia.
  - rewrite rsum_0, (rsum_ext 1 _ (fun _ => 1)), rsum_const; [cbn; ring| |].
    + intros i Hi. cbn [rc]. destruct (Nat.ltb_spec (nv b + i) (nv b)); [lia|]. unfold upd. now rewrite Nat.eqb_refl.
    + intros i Hi. cbn [rc]. destruct (Nat.ltb_spec i (nv b)); [|lia]. apply rc_out. lia.
Qed.
Lemma last_coord T i : match T with Pt => True | Pri b | Pyr b => rc T i (tdim b) = 0 \/ rc T i (tdim b) = 1 end.
Proof.
  destruct T as [|b|b]; [exact I| |]; cbn [rc]; destruct (Nat.ltb i (nv b)); try (left; apply rc_out; lia); right; unfold upd; now rewrite Nat.eqb_refl.
Qed.
Lemma far_coord id d i p : nth_error (referenceCorners id (S d)) i = Some p -> 1 / INR (size id (S d) (S d)) <= Rabs (p d - meanT (topo_of id (S d)) d).
Proof.
  intro Hp. assert (Hi : (i < nv (topo_of id (S d)))%nat) by (rewrite nv_size; apply nth_error_Some; congruence).
  rewrite (ref_nth id (S d) i Hi) in Hp. assert (EP : p = rc (topo_of id (S d)) i) by congruence. rewrite EP. clear p Hp EP. rewrite mean_corners, <- C16_corner_count, <- nv_size. set (T := topo_of id (S d)) in *.
  rewrite (rsum_ext (nv T) _ (fun i => rc T i d)) by (intros j Hj; unfold T; now rewrite rc_corner).
  assert (TD : match T with Pt => False | Pri b | Pyr b => tdim b = d end).
  { unfold T. rewrite topo_S. destruct (N.testbit id (N.of_nat d)); apply tdim_topo. }
  pose proof (last_sum T) as S. pose proof (last_coord T i) as C.
  destruct T as [|b|b]; [contradiction| |]; rewrite TD in S, C; rewrite S; pose proof (nv_pos b) as NP; cbn [nv]; rewrite plus_INR; apply lt_INR in NP; cbn [INR] in NP |- *.
  - set (v := INR (nv b)) in *. assert (1 <= v) by (unfold v; change 1 with (INR 1); apply le_INR; apply nv_pos).
    assert (E : v / (v + v) = 1 / 2) by (field; lra). rewrite E. assert (1 / (v + v) <= 1 / 2) by (unfold Rdiv; rewrite !Rmult_1_l; apply Rinv_le_contravar; lra).
    destruct C as [-> | ->]; [rewrite Rabs_left by lra|rewrite Rabs_right by lra]; lra.
  - set (v := INR (nv b)) in *. assert (1 <= v) by (unfold v; change 1 with (INR 1); apply le_INR; apply nv_pos).
    assert (0 < 1 / (v + 1)) by (apply Rdiv_lt_0_compat; lra). assert (1 / (v + 1) <= 1 / 2) by (unfold Rdiv; rewrite !Rmult_1_l; apply Rinv_le_contravar; lra).
    destruct C as [-> | ->]; [rewrite Rabs_left by lra|rewrite Rabs_right by lra]; lra.
Qed.
Lemma two_norm_coord n (v : Vec) d : (d < n)%nat -> Rabs (v d) <= two_norm n v.
Proof.
  intro Hd. unfold two_norm. rewrite <- sqrt_Rsqr_abs. apply sqrt_le_1_alt. unfold norm2, Rsqr.
  rewrite <- (rsum_delta n d (fun j => v j * v j) Hd). apply rsum_le. intros j Hj. destruct (Nat.eqb j d); nra.
Qed.
Lemma scaled_mvec n s v k : (k < n)%nat -> mvec n (ta_scaled n s) v k = s * v k.
Proof.
  intro Hk. unfold mvec, ta_scaled. apply Nat.ltb_lt in Hk as L. rewrite L. cbn [andb]. rewrite (rsum_ext n _ (fun j => if Nat.eqb j k then s * v j else 0)).
  - now rewrite (rsum_delta n k (fun j => s * v j)).
  - intros j Hj. rewrite Nat.eqb_sym. destruct (Nat.eqb j k); ring.
Qed.
Lemma scaled_det n s : detR n (ta_scaled n s) = s ^ n.
Proof.
  rewrite <- (detR_diag n s n (le_n n)). apply (@detR_ext n). intros i j Hi Hj. rewrite midentity_eq by assumption. unfold ta_scaled. apply Nat.ltb_lt in Hi. rewrite Hi. cbn [andb].
  destruct (Nat.eqb i j); ring.
Qed.
Lemma scaled_independent n s : s <> 0 -> col_independent n n (ta_scaled n s).
Proof. intros Hs w Hw j Hj. specialize (Hw j Hj). rewrite scaled_mvec in Hw by assumption. apply Rmult_integral in Hw. tauto. Qed.
Lemma scaled_orth n : meq n n (mmul n (mtr (ta_scaled n 1)) (ta_scaled n 1)) mone.
Proof.
  intros i j Hi Hj. unfold mmul, mtr. rewrite (rsum_ext n _ (fun k => if Nat.eqb k i then ta_scaled n 1 k j else 0)).
  - rewrite (rsum_delta n i (fun k => ta_scaled n 1 k j)) by assumption. unfold ta_scaled, mone. apply Nat.ltb_lt in Hi. rewrite Hi. reflexivity.
  - intros k Hk. unfold ta_scaled at 1. apply Nat.ltb_lt in Hk. rewrite Hk. cbn [andb]. destruct (Nat.eqb k i); ring.
Qed.
