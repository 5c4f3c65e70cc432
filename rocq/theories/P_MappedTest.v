(** Lemmas for the property about test-mappedgeometry.cc: a geometry that looks affine is accepted whatever its flag, one
    Gauss-Newton step from values at two points only, the volume of a constant integration element. *)
From Coq Require Import PeanoNat NArith ZArith Bool List Reals Lia Lra.
From Verif Require Import M_Type M_RefTopo M_RefGeo M_Matrix M_Affine M_MultiLinear M_GaussNewton M_LocalFE M_CheckGeo M_MLTest M_MappedTest
  S_Topo S_RefGeo S_Matrix S_MultiLinear S_GaussNewton S_Agree S_CheckGeo P_Type P_Topo P_RefTopo P_RefTopo2 P_RefTopo3 P_RSum P_RefGeo P_RefGeo2 P_RefGeo3 P_RefGeo4
  P_Matrix P_Matrix2 P_Matrix3 P_Matrix4 P_Matrix5 P_Det P_MxBridge P_Affine
  P_ML1 P_ML2 P_ML3 P_ML4 P_ML5 P_GaussNewton P_Agree P_LocalFE T_RefGeo T_Matrix T_Affine T_MultiLinear T_GaussNewton T_LocalFE P_Agree2 T_Agree P_CheckGeo T_CheckGeo P_AffineTest.
Import ListNotations.
Local Open Scope R_scope.

(** ** points that agree *)
Lemma regular_ext tol T : forall x y, (forall k, (k < tdim T)%nat -> x k = y k) -> regular tol T x -> regular tol T y.
Proof.
  induction T as [|b IH|b IH]; intros x y E H; cbn [regular tdim] in *; [exact I|apply (IH x); auto|].
  rewrite <- (E (tdim b)) by lia. destruct H as [H|[H|[H1 H2]]]; [now left|right; now left|]. right. right. split; [exact H1|].
  apply (IH (fun k => x k / (1 - x (tdim b)))); [|exact H2]. intros k Hk. cbn beta. now rewrite E by lia.
Qed.
Lemma usable_ext tol id mydim x y : veq mydim x y -> usable tol id mydim x -> usable tol id mydim y.
Proof.
  intros E [H|[H1 H2]].
  - left. apply (P_ML5.smooth_ext _ _ x); [|exact H]. intros k Hk. apply E. now rewrite tdim_topo in Hk.
  - right. split; [apply (regular_ext _ _ x); [|exact H1]; intros k Hk; apply E; now rewrite tdim_topo in Hk|].
    destruct H2 as (w & W1 & W2 & W3). exists w. split; [exact W1|]. split; [exact W2|]. intros k Hk. rewrite <- E by assumption. now apply W3.
Qed.

(** ** one step of Gauss-Newton, from the values at the start and at the solution *)
Lemma one_step mydim cdim j1 j2 f df y o x0 b (A : Mat) xs A' fx : (mydim <= cdim)%nat -> gn_usable o ->
  row_independent mydim cdim A -> df x0 = Some A' -> meq mydim cdim A' A -> f x0 = Some fx -> veq cdim fx (fun k => b k + mvec mydim (mtr A) x0 k) ->
  (forall x, veq mydim x xs -> exists fx, f x = Some fx /\ veq cdim fx (fun k => b k + mvec mydim (mtr A) x k)) ->
  veq cdim y (fun k => b k + mvec mydim (mtr A) xs k) -> ~ veq mydim x0 xs ->
  exists z, gaussNewton mydim cdim j1 j2 f df y o x0 = Some (GN_OK, z) /\ veq mydim z xs.
Proof.
  intros Hd (Hm & Hi & Ht) HR ED VA Ef Vf HF HY NE.
  unfold gaussNewton. rewrite Ef. cbn [obind].
  destruct (Z.to_nat (gn_maxIt o)) as [|n] eqn:En; [lia|]. cbn [gn_loop]. rewrite ED. cbn [obind].
  set (dy := fun k => fx k - y k). assert (EY : veq cdim dy (mvec mydim (mtr A) (fun j => x0 j - xs j))).
  { intros k Hk. unfold dy. rewrite Vf, HY by assumption. unfold mvec, mtr.
    rewrite (rsum_ext mydim (fun j => A j k * (x0 j - xs j)) (fun j => A j k * x0 j - A j k * xs j)) by (intros; ring). rewrite rsum_minus. ring. }
  assert (HR' : row_independent mydim cdim A').
  { intros w Hw. apply HR. intros i Hi0. rewrite <- (Hw i Hi0). apply rsum_ext. intros j Hj. unfold mtr. now rewrite VA. }
  assert (EY' : veq cdim dy (mvec mydim (mtr A') (fun j => x0 j - xs j))).
  { intros k Hk. rewrite EY by assumption. apply rsum_ext. intros j Hj. unfold mtr. now rewrite VA. }
  destruct (C25_xTRightInvA mydim cdim A' dy j1 j2 Hd) as [K _]. destruct (K HR') as (d & E & V & _). rewrite E. cbn [obind negb].
  assert (VD := direction_exact mydim cdim A' dy d (fun j => x0 j - xs j) HR' V EY').
  destruct (Z.to_nat (gn_maxInnerIt o)) as [|ni] eqn:Eni; [lia|]. cbn [gn_search].
  set (x1 := fun k => x0 k - 1 * d k). assert (X1 : veq mydim x1 xs) by (intros j Hj; unfold x1; rewrite VD by assumption; ring).
  destruct (HF x1 X1) as (f1 & E1 & V1). rewrite E1. cbn [obind].
  assert (N1 : two_norm cdim (fun k => f1 k - y k) = 0).
  { apply two_norm_0. intros k Hk. rewrite V1, HY by assumption. unfold mvec, mtr.
    rewrite (rsum_ext mydim (fun j => A j k * x1 j) (fun j => A j k * xs j)); [ring|]. intros j Hj. now rewrite X1. }
  assert (N0 : 0 < two_norm cdim dy).
  { destruct (two_norm_nonneg cdim dy) as [|Q]; [assumption|]. exfalso. symmetry in Q. apply NE. intros j0 Hj0.
    assert (X := HR (fun j => x0 j - xs j)). cbv beta in X. assert (X' : x0 j0 - xs j0 = 0); [|lra]. apply X; [|exact Hj0].
    intros k Hk. rewrite <- (EY k Hk). now apply (two_norm_zero_inv cdim dy Q). }
  rewrite N1. rewrite (proj2 (Rltb_true 0 (two_norm cdim dy)) N0). cbn [obind negb].
  rewrite (proj2 (Rltb_true 0 (two_norm cdim dy)) N0). cbn [negb]. rewrite (proj2 (Rltb_true 0 (gn_absTol o)) Ht).
  exists x1. split; [reflexivity|exact X1].
Qed.

(** ** volume of a constant integration element *)
Definition const_rule (tol : R) (id : N) (mydim : nat) (q : option Rule) : Prop :=
  exists l, q = Some l /\ fold_right (fun pw acc => snd pw + acc) 0 l = referenceVolume id mydim /\ forall x w, In (x, w) l -> usable tol id mydim x.
Lemma volume_const tol id mydim intel d rule a o : (forall x, usable tol id mydim x -> intel x = Some d) ->
  (forall p, (1 <= p <= Z.max 1 (co_maxIt o - 1))%Z -> (a = true -> p = 1%Z) -> const_rule tol id mydim (rule p)) ->
  volume_iter rule intel (Some a) o = Some (d * referenceVolume id mydim).
Proof.
  intros HI HR.
  assert (VS : forall q, const_rule tol id mydim q -> exists l, q = Some l /\ volume_sum intel l 0 = Some (d * referenceVolume id mydim)).
  { intros q (l & E & S1 & U). exists l. split; [exact E|]. rewrite (volume_sum_spec intel (fun _ => d)); [|intros p w Hp; apply HI; now apply (U p w)].
    rewrite rule_value_const, S1. f_equal. ring. }
  unfold volume_iter. destruct (VS (rule 1%Z)) as (l & E1 & E2); [apply HR; [lia|auto]|]. rewrite E1. cbn [obind]. rewrite E2. cbn [obind].
  destruct a; [reflexivity|].
  assert (L : forall n p, (2 <= p)%Z -> (p + Z.of_nat n <= Z.max 2 (co_maxIt o))%Z ->
     volume_loop rule intel (co_absTol o) n p (d * referenceVolume id mydim) = Some (d * referenceVolume id mydim)).
  { induction n as [|n IH]; intros p Hp Hn; [reflexivity|]. cbn [volume_loop]. destruct (VS (rule p)) as (l' & F1 & F2); [apply HR; [lia|discriminate]|].
    rewrite F1. cbn [obind]. rewrite F2. cbn [obind]. destruct (Rltb _ _); [reflexivity|]. apply IH; lia. }
  apply L; lia.
Qed.

(** ** a geometry that looks affine *)
Definition looks_affine (mydim cdim : nat) (tol : R) (id : N) (o : Vec) (M X : Mat) (d : R) (g : GeoI) (local : Vec -> option Vec) : Prop :=
  (exists a, gi_affine g = Some a) /\ gi_type g = GT2 id mydim /\ gi_corners g = size id mydim mydim /\
  (forall i p, nth_error (referenceCorners id mydim) i = Some p -> exists u, gi_corner g i = Some u /\ veq cdim u (aff mydim o M p)) /\
  (exists u, gi_center g = Some u /\ veq cdim u (aff mydim o M (meanT (topo_of id mydim)))) /\
  gi_volume g = Some (d * referenceVolume id mydim) /\
  (forall x, usable tol id mydim x -> std_at mydim cdim g x (aff mydim o M x) M X d) /\
  forall x y, usable tol id mydim x -> ~ veq mydim x (meanT (topo_of id mydim)) -> gi_global g x = Some y -> exists z, local y = Some z /\ veq mydim z x.
Lemma looks_check mydim cdim tol tolc junk id r o M X d g local c q : (mydim <= cdim)%nat -> 0 < tol < 1 / 2 -> (id < 2 ^ N.of_nat mydim)%N -> re_infos id mydim = Some r ->
  pinv mydim cdim M X d -> looks_affine mydim cdim tol id o M X d g local -> 0 < tolc -> re_position id mydim r 0 0 = Some c ->
  (forall x w, In (x, w) q -> usable tol id mydim x /\ ~ veq mydim x c) ->
  checkGeometry mydim cdim tolc junk g local (detR mydim) (Some q) = Some true <->
    tolc <= d * referenceVolume id mydim /\ ((0 < mydim)%nat -> forall i p, nth_error (referenceCorners id mydim) i = Some p ->
                     tolc < two_norm cdim (mvec mydim (mtr M) (fun j => p j - c j))).
Proof.
  intros Hm Ht Hid Hr HP (( fl & A1) & TY & A3 & A4 & (m & A5 & A5') & A6 & A7 & HL) Htc Hc HQ. assert (Hid' := Hid). rewrite <- bit_pow in Hid'.
  destruct (center_pos mydim id r Hid' Hr) as (c' & Ec & Vc). rewrite Hc in Ec. injection Ec as <-.
  assert (NL : length (referenceCorners id mydim) = size id mydim mydim) by apply C16_corner_count.
  set (n := size id mydim mydim) in *. set (rcs := referenceCorners id mydim) in *.
  assert (NP : (0 < n)%nat) by (rewrite <- NL; unfold rcs; rewrite corners_verts, map_length; apply verts_length_pos).
  assert (RN : forall i, (i < n)%nat -> nth_error rcs i = Some (nth i rcs vzero)) by (intros i Hi; apply nth_error_nth'; lia).
  (* the corners of the geometry *)
  assert (CU : forall i u, gi_corner g i = Some u -> (i < n)%nat -> veq cdim u (aff mydim o M (nth i rcs vzero))).
  { intros i u E Hi. destruct (A4 i _ (RN i Hi)) as (u' & E' & V). rewrite E in E'. injection E' as <-. exact V. }
  assert (MV : forall k, (k < cdim)%nat -> m k = aff mydim o M c k).
  { intros k Hk. rewrite A5' by assumption. unfold aff. f_equal. apply rsum_ext. intros j Hj. now rewrite Vc. }
  assert (AVG : forall (cs : nat -> Vec) k, (k < cdim)%nat -> (forall i, (i < n)%nat -> gi_corner g i = Some (cs i)) -> rsum n (fun i => cs i k) / INR n = aff mydim o M c k).
  { intros cs k Hk HC. rewrite (rsum_ext n _ (fun i => o k + rsum mydim (fun j => M j k * nth i rcs vzero j))).
    2:{ intros i Hi. rewrite (CU i (cs i) (HC i Hi) Hi) by assumption. reflexivity. }
    rewrite rsum_plus, rsum_const, rsum_swap. unfold aff.
    rewrite (rsum_ext mydim (fun j => M j k * c j) (fun j => / INR n * (M j k * rsum n (fun i => nth i rcs vzero j)))).
    2:{ intros j Hj. rewrite Vc by assumption. rewrite mean_corners. fold n rcs. unfold Rdiv. ring. }
    rewrite rsum_scal. rewrite (rsum_ext mydim (fun j => M j k * rsum n (fun i => nth i rcs vzero j)) (fun j => rsum n (fun i => M j k * nth i rcs vzero j))) by (intros; symmetry; apply rsum_scal).
    field. apply not_0_INR. lia. }
  assert (DI : forall u v p, veq cdim u (aff mydim o M p) -> veq cdim v (aff mydim o M c) -> vdist cdim u v = two_norm cdim (mvec mydim (mtr M) (fun j => p j - c j))).
  { intros u v p HU HV. unfold vdist, two_norm, norm2. f_equal. apply rsum_ext. intros k Hk.
    assert (E : u k - v k = mvec mydim (mtr M) (fun j => p j - c j) k); [|now rewrite E].
    rewrite HU, HV by assumption. unfold aff, mvec, mtr. rewrite (rsum_ext mydim (fun j => M j k * (p j - c j)) (fun j => M j k * p j - M j k * c j)) by (intros; ring).
    rewrite rsum_minus. ring. }
  assert (N1 : (1 < n)%nat <-> (0 < mydim)%nat).
  { unfold n. destruct mydim as [|d0]; [cbn; lia|]. split; [lia|]. intros _. assert (Q := size_two id (S d0) ltac:(lia)). unfold n in *. lia. }
  rewrite C82_check. unfold passes. rewrite A3. cbv zeta. fold n. split.
  - intros (cs & m' & vol' & _ & HC & Em & HD & Ev & HV & _). rewrite A5 in Em. injection Em as <-. rewrite A6 in Ev. injection Ev as <-. split; [exact HV|].
    intros Hpos i p Hp. assert (Hi : (i < n)%nat) by (rewrite <- NL; apply nth_error_Some; congruence).
    destruct (HD (aff mydim o M c)) as [HD1 _]; [intros k Hk; symmetry; now apply AVG|].
    destruct (HD1 (proj2 N1 Hpos) i Hi) as [D _]. rewrite (RN i Hi) in Hp. injection Hp as <-.
    rewrite (DI (cs i) m (nth i rcs vzero)) in D; [exact D|now apply CU; auto|exact MV].
  - intros [HV HD].
    assert (EX : forall i, exists u, (i < n)%nat -> gi_corner g i = Some u).
    { intro i. destruct (Nat.lt_ge_cases i n) as [L|L]; [|exists vzero; lia]. destruct (A4 i _ (RN i L)) as (u & E & _). now exists u. }
    set (cs := fun i => match gi_corner g i with Some u => u | None => vzero end).
    assert (HC : forall i, (i < n)%nat -> gi_corner g i = Some (cs i)). { intros i Hi. destruct (EX i) as [u E]. unfold cs. now rewrite (E Hi). }
    assert (CV : forall i, (i < n)%nat -> veq cdim (cs i) (aff mydim o M (nth i rcs vzero))) by (intros i Hi; now apply CU; auto).
    assert (GP : forall x, usable tol id mydim x -> exists y, gi_global g x = Some y /\ veq cdim y (aff mydim o M x)) by (intros x U; exact (proj1 (A7 x U))).
    assert (VD0 : forall u v, veq cdim u v -> vdist cdim u v <= tolc).
    { intros u v E. unfold vdist. rewrite two_norm_0; [lra|]. intros k Hk. rewrite E by assumption. ring. }
    exists cs, m, (d * referenceVolume id mydim). split; [exact NP|]. split; [exact HC|]. split; [exact A5|]. split.
    { intros avg HAvg. assert (AV : veq cdim avg (aff mydim o M c)) by (intros k Hk; rewrite HAvg by assumption; now apply AVG). split.
      - intros Hn i Hi. assert (Hpos := proj1 N1 Hn). rewrite (DI (cs i) m (nth i rcs vzero) (CV i Hi) MV), (DI (cs i) avg (nth i rcs vzero) (CV i Hi) AV).
        split; apply (HD Hpos i); now apply RN.
      - intros _. apply VD0. intros k Hk. rewrite MV, AV by assumption. reflexivity. }
    split; [exact A6|]. split; [exact HV|]. right. rewrite TY. cbn [GT2 gt_id]. 
    assert (UC : usable tol id mydim c).
    { left. apply (P_ML5.smooth_ext _ _ (meanT (topo_of id mydim))); [intros k Hk; symmetry; apply Vc; now rewrite tdim_topo in Hk|]. apply meanT_smooth. lra. }
    destruct (GP c UC) as (yc & Eyc & Vyc). exists r, c, yc. split; [exact Hr|]. split; [exact Hc|]. split; [exact Eyc|].
    split; [apply VD0; intros k Hk; rewrite MV, Vyc by assumption; reflexivity|]. split; [reflexivity|]. split.
    { intros i Hi. assert (E := RN i Hi). destruct (GP (nth i rcs vzero) (corner_usable tol id mydim i _ ltac:(lra) E)) as (z & Ez & Vz). exists (nth i rcs vzero), z.
      split; [unfold re_position; now rewrite Nat.eqb_refl|]. split; [exact Ez|]. apply VD0. intros k Hk. rewrite (CV i Hi), Vz by assumption. reflexivity. }
    exists q. split; [reflexivity|]. intros x w Hx. destruct (HQ x w Hx) as [U Nx].
    destruct (A7 x U) as ((y & E1 & V1) & (J & E2 & V2) & (Jt & E3 & V3) & (Ji & E4 & V4) & (Jit & E5 & V5) & E6).
    destruct (HL x y U) as (z & Ez & Vz); [intros E; apply Nx; intros k Hk; rewrite E by assumption; now rewrite Vc|exact E1|].
    assert (ID : forall i j, (i < mydim)%nat -> (j < mydim)%nat -> mmul cdim M X i j = mone i j).
    { destruct HP as (_ & _ & G & HG & HX). intros i j Hi Hj. rewrite <- (HG i j Hi Hj). unfold mmul at 1.
      rewrite (rsum_ext cdim _ (fun k => M i k * mmul mydim (mtr M) G k j)) by (intros k Hk; now rewrite HX).
      symmetry. exact (mvec_mmul cdim mydim M (mtr M) (fun k => G k j) i). }
    exists y, z, Jt, Jit, J, Ji, d. split; [exact E1|]. split; [exact Ez|].
    split; [unfold vdist; rewrite two_norm_0; [lra|intros k Hk; rewrite Vz by assumption; ring]|]. do 4 (split; [assumption|]).
    split; [intros i j Hi Hj; rewrite <- (ID i j Hi Hj); change (mmul cdim Jt Jit i j) with (rsum cdim (fun k => Jt i k * Jit k j)); rewrite (mmul_id mydim cdim Jt Jit M X V3 V5 i j Hi Hj), Rminus_diag_eq, Rabs_R0 by reflexivity; exact Htc|].
    split.
    { intros i j Hi Hj. assert (E : mmul cdim Ji J i j = mone j i).
      { rewrite <- (ID j i Hj Hi). unfold mmul. apply rsum_ext. intros k Hk. rewrite V4, V2 by assumption. unfold mtr. ring. }
      rewrite E. replace (mone j i) with (mone i j) by (unfold mone; now rewrite Nat.eqb_sym). rewrite Rminus_diag_eq, Rabs_R0 by reflexivity. exact Htc. }
    split; [intros i j Hi Hj; rewrite V3 by assumption; unfold mtr; now rewrite V2|].
    split; [intros i j Hi Hj; rewrite V5 by assumption; unfold mtr; now rewrite V4|].
    split; [exact E6|]. destruct HP as (D1 & D2 & _). split; [lra|]. split.
    { rewrite (@detR_ext mydim _ (mmul cdim M (mtr M))).
      - rewrite <- D2, sqrt_square by lra. rewrite Rminus_diag_eq, Rabs_R0 by reflexivity. lra.
      - intros i j Hi Hj. apply rsum_ext. intros k Hk. unfold mtr. now rewrite !V3. }
    exists fl. split; [exact A1|]. intros _. exists (d * referenceVolume id mydim). split; [exact A6|]. replace (d * referenceVolume id mydim - referenceVolume id mydim * d) with 0 by ring. rewrite Rabs_R0. lra.
Qed.

(** ** MappedGeometry over a geometry that represents an affine map *)
Definition aff_wrapped (mydim gdim : nat) (tol : R) (id : N) (r : RefElement) (o : Vec) (M : Mat) (w : WrappedGeo) : Prop :=
  wg_id w = id /\ wg_ref w = r /\
  (forall i p, nth_error (referenceCorners id mydim) i = Some p -> exists u, wg_corner w i = Some u /\ veq gdim u (aff mydim o M p)) /\
  (exists u, wg_center w = Some u /\ veq gdim u (aff mydim o M (meanT (topo_of id mydim)))) /\
  (forall x, usable tol id mydim x -> exists u J, wg_global w x = Some u /\ veq gdim u (aff mydim o M x) /\ wg_jacobian w x = Some J /\ meq gdim mydim J (mtr M)).

(** the classes of the library as wrapped geometries *)
Lemma wrap_affine mydim gdim tol id r o M g : (mydim <= gdim)%nat -> (mydim < 256)%nat -> 0 < tol < 1 / 2 -> (id < bit mydim)%N -> re_infos id mydim = Some r ->
  row_independent mydim gdim M -> affine_instance mydim gdim tol id r o M g -> aff_wrapped mydim gdim tol id r o M (wrap id r g).
Proof.
  intros Hm Hd Ht Hid Hr HR HA. destruct (pinv_exists mydim gdim M Hm HR) as (X & d & HP).
  destruct (instance_like mydim gdim tol id r o M X d Hm Hd Ht Hid Hr HR HP g HA) as (A1 & A2 & A3 & A4 & A5 & A6 & A7).
  split; [reflexivity|]. split; [reflexivity|]. split; [exact A4|]. split; [exact A5|]. intros x U.
  destruct (A7 x U) as ((u & E1 & V1) & (J & E2 & V2) & _). exists u, J. auto.
Qed.
Lemma midentity_independent n : row_independent n n (midentity n).
Proof.
  intros w Hw i Hi. specialize (Hw i Hi). unfold mvec, mtr, midentity in Hw. rewrite (rsum_ext n _ (fun j => if Nat.eqb j i then w j else 0)) in Hw.
  - now rewrite (rsum_delta n i w Hi) in Hw.
  - intros j Hj. rewrite (proj2 (Nat.ltb_lt j n)) by assumption. rewrite andb_true_r. destruct (Nat.eqb j i); ring.
Qed.
Lemma aff_identity n x k : (k < n)%nat -> aff n vzero (midentity n) x k = x k.
Proof.
  intro Hk. unfold aff, vzero, midentity. rewrite (rsum_ext n _ (fun j => if Nat.eqb j k then x j else 0)).
  - rewrite (rsum_delta n k x Hk). ring.
  - intros j Hj. rewrite (proj2 (Nat.ltb_lt j n)) by assumption. rewrite andb_true_r. destruct (Nat.eqb j k); ring.
Qed.
(** LocalDerivativeGeometry with a Jacobian that is the identity where it matters *)
Lemma ldg_affine mydim tol id r ret j1 j2 base jac : (id < bit mydim)%N -> re_infos id mydim = Some r -> reg_make mydim id r ret j1 j2 = Some base ->
  (forall x, usable tol id mydim x -> exists J, jac x = Some J /\ meq mydim mydim J (mtr (midentity mydim))) ->
  aff_wrapped mydim mydim tol id r vzero (midentity mydim) (ldg_wrapped mydim base jac).
Proof.
  intros Hid Hr EB HJ. destruct (reg_identity mydim id r _ _ _ _ EB) as (EI & ER & IG). split; [exact EI|]. split; [exact ER|]. cbn [ldg_wrapped wg_corner wg_center wg_global wg_jacobian].
  split; [|split].
  - intros i p Hp. unfold ag_corner. rewrite EI, ER, (corner_pos mydim id r i p Hp). cbn [obind]. eexists. split; [reflexivity|]. intros k Hk. rewrite IG by assumption. symmetry. now apply aff_identity.
  - destruct (center_pos mydim id r Hid Hr) as (p & E1 & V). unfold ag_center. rewrite EI, ER, E1. cbn [obind]. eexists. split; [reflexivity|]. intros k Hk. rewrite IG by assumption.
    rewrite V by assumption. symmetry. now apply aff_identity.
  - intros x U. destruct (HJ x U) as (J & E & V). exists x, J. split; [reflexivity|]. split; [intros k Hk; symmetry; now apply aff_identity|]. auto.
Qed.
Lemma reg_affine mydim tol id r ret j1 j2 base : (id < bit mydim)%N -> re_infos id mydim = Some r -> reg_make mydim id r ret j1 j2 = Some base ->
  aff_wrapped mydim mydim tol id r vzero (midentity mydim) (reg_wrapped mydim base).
Proof.
  intros Hid Hr EB. apply (ldg_affine mydim tol id r ret j1 j2 base (fun _ => Some (fun i j => if Nat.eqb i j then 1 else 0)) Hid Hr EB).
  intros x _. eexists. split; [reflexivity|]. intros i j Hi Hj. unfold mtr, midentity. rewrite (proj2 (Nat.ltb_lt j mydim)) by assumption. rewrite andb_true_r. now rewrite Nat.eqb_sym.
Qed.

Section Mapped.
Variables (mydim gdim cdim : nat) (tol : R) (id : N) (r : RefElement) (o1 o2 : Vec) (M1 M2 X : Mat) (d : R).
Variables (g : MappedGeo).
Let o : Vec := aff gdim o2 M2 o1.
Let M : Mat := mmul gdim M1 M2.
Hypothesis Hm : (mydim <= cdim)%nat.
Hypothesis Ht : 0 < tol < 1 / 2.
Hypothesis Hid : (id < bit mydim)%N.
Hypothesis Hr : re_infos id mydim = Some r.
Hypothesis HR : row_independent mydim cdim M.
Hypothesis HP : pinv mydim cdim M X d.
Hypothesis HW : aff_wrapped mydim gdim tol id r o1 M1 (mg_geo g).
Hypothesis HM : forall x, veq cdim (mg_map g x) (aff gdim o2 M2 x).
Hypothesis HD : forall x, meq cdim gdim (mg_dmap g x) (mtr M2).

Lemma mapped_value u x k : veq gdim u (aff mydim o1 M1 x) -> (k < cdim)%nat -> mg_map g u k = aff mydim o M x k.
Proof.
  intros E Hk. rewrite HM by assumption. unfold aff at 1. rewrite (rsum_ext gdim _ (fun l => M2 l k * o1 l + rsum mydim (fun j => M1 j l * M2 l k * x j))).
  2:{ intros l Hl. rewrite E by assumption. unfold aff. rewrite Rmult_plus_distr_l. f_equal. rewrite <- rsum_scal. apply rsum_ext. intros; ring. }
  rewrite rsum_plus, rsum_swap. unfold o, M, mmul, aff. rewrite Rplus_assoc. do 2 f_equal.
  apply rsum_ext. intros j Hj. rewrite <- rsum_scal_r. reflexivity.
Qed.
Lemma mapped_global x : usable tol id mydim x -> exists y, mg_global g x = Some y /\ veq cdim y (aff mydim o M x).
Proof.
  intro U. destruct HW as (_ & _ & _ & _ & W). destruct (W x U) as (u & J & E1 & V1 & _). unfold mg_global. rewrite E1. cbn [option_map].
  eexists. split; [reflexivity|]. intros k Hk. now apply mapped_value.
Qed.
Lemma mapped_jacobian x : usable tol id mydim x -> exists J, mg_jacobian gdim g x = Some J /\ meq cdim mydim J (mtr M).
Proof.
  intro U. destruct HW as (_ & _ & _ & _ & W). destruct (W x U) as (u & J & E1 & V1 & E2 & V2). unfold mg_jacobian. rewrite E2. cbn [obind]. rewrite E1. cbn [obind].
  eexists. split; [reflexivity|]. intros i j Hi Hj. unfold mtr, M, mmul. apply rsum_ext. intros k Hk. rewrite HD, V2 by assumption. unfold mtr. ring.
Qed.
Lemma mapped_std ret j1 j2 rule opts x : usable tol id mydim x -> std_at mydim cdim (gi_mg mydim cdim gdim ret j1 j2 rule opts g) x (aff mydim o M x) M X d.
Proof.
  intro U. destruct (mapped_global x U) as (y & E1 & V1). destruct (mapped_jacobian x U) as (J & E2 & V2).
  exact (mg_std mydim cdim Hm x _ M X d HR HP gdim ret j1 j2 rule opts g y J E1 V1 E2 V2).
Qed.
Lemma mapped_center_usable p : veq mydim p (meanT (topo_of id mydim)) -> usable tol id mydim p.
Proof.
  intro V. left. apply (P_ML5.smooth_ext _ _ (meanT (topo_of id mydim))); [intros k Hk; symmetry; apply V; now rewrite tdim_topo in Hk|]. apply meanT_smooth. lra.
Qed.
Lemma mapped_local j1 j2 gn x y : gn_usable gn -> usable tol id mydim x -> ~ veq mydim x (meanT (topo_of id mydim)) -> mg_global g x = Some y ->
  exists z, mg_local mydim gdim cdim j1 j2 g y gn = Some (Some z) /\ veq mydim z x.
Proof.
  intros HG U Nx Ey. destruct (center_pos mydim id r Hid Hr) as (p & Ep & Vp). destruct (mapped_global p (mapped_center_usable p Vp)) as (fx & Ef & Vf).
  destruct (mapped_jacobian p (mapped_center_usable p Vp)) as (J & EJ & VJ). destruct (mapped_global x U) as (y' & Ey' & Vy). rewrite Ey in Ey'. injection Ey' as <-.
  destruct (one_step mydim cdim j1 j2 (mg_global g) (mg_jacobianTransposed gdim g) y gn p o M x (fun i j => J j i) fx Hm HG HR) as (z & E & V).
  - unfold mg_jacobianTransposed. now rewrite EJ.
  - intros i j Hi Hj. now rewrite VJ.
  - exact Ef.
  - exact Vf.
  - intros x' Ex. apply mapped_global. apply (usable_ext _ _ _ x); [|exact U]. intros k Hk. symmetry. now apply Ex.
  - exact Vy.
  - intro E. apply Nx. intros k Hk. rewrite <- E by assumption. now apply Vp.
  - exists z. split; [|exact V]. unfold mg_local. destruct HW as (-> & -> & _). rewrite Ep. cbn [obind]. rewrite E. reflexivity.
Qed.
(** the centre of the reference element is the start of the iteration *)
Lemma mapped_centre_local j1 j2 gn x y : gn_usable gn -> veq mydim x (meanT (topo_of id mydim)) -> mg_global g x = Some y ->
  mg_local mydim gdim cdim j1 j2 g y gn = None \/ mg_local mydim gdim cdim j1 j2 g y gn = Some None.
Proof.
  intros (G1 & G2 & G3) Vx Ey. destruct (center_pos mydim id r Hid Hr) as (p & Ep & Vp). destruct (mapped_global p (mapped_center_usable p Vp)) as (fx & Ef & Vf).
  destruct (mapped_global x (mapped_center_usable x Vx)) as (y' & Ey' & Vy). rewrite Ey in Ey'. injection Ey' as <-.
  unfold mg_local. destruct HW as (-> & -> & _). rewrite Ep. cbn [obind].
  destruct (gaussNewton mydim cdim j1 j2 (mg_global g) (mg_jacobianTransposed gdim g) y gn p) as [[e z]|] eqn:E; [|now left]. cbn [obind]. right. do 1 f_equal.
  destruct (C36_exact_start_never_ok mydim cdim j1 j2 (mg_global g) (mg_jacobianTransposed gdim g) y gn p fx e z Hm G1 G2 Ef) as [N _]; [|exact E|].
  - intros k Hk. rewrite Vf, Vy by assumption. apply aff_ext. intros j Hj. rewrite Vx by assumption. now apply Vp.
  - destruct e; try reflexivity. now destruct N.
Qed.
Lemma mapped_looks ret j1 j2 rule opts gn : gn_usable gn ->
  (forall p, (1 <= p <= Z.max 1 (co_maxIt opts - 1))%Z -> (mg_affine g = true -> p = 1%Z) -> const_rule tol id mydim (rule p)) ->
  looks_affine mydim cdim tol id o M X d (gi_mg mydim cdim gdim ret j1 j2 rule opts g) (fun y => obind (mg_local mydim gdim cdim j1 j2 g y gn) (fun z => z)).
Proof.
  intros HG HRU. assert (HW' := HW). destruct HW' as (EI & ER & WC & (c & EC & VC) & _).
  split; [now exists (mg_affine g)|]. split; [cbn [gi_mg gi_type]; now rewrite EI|]. split; [cbn [gi_mg gi_corners]; now rewrite EI|].
  cbn [gi_mg gi_corner gi_center gi_volume gi_global]. split; [|split; [|split; [|split]]].
  - intros i p Hp. destruct (WC i p Hp) as (u & E & V). unfold mg_corner. rewrite E. cbn [option_map]. eexists. split; [reflexivity|]. intros k Hk. now apply mapped_value.
  - unfold mg_center. rewrite EC. cbn [option_map]. eexists. split; [reflexivity|]. intros k Hk. now apply mapped_value.
  - unfold mg_volume. apply (volume_const tol); [|exact HRU]. intros x U. destruct (mapped_std ret j1 j2 rule opts x U) as (_ & _ & _ & _ & _ & Q). exact Q.
  - intros x U. now apply mapped_std.
  - intros x y U Nx Ey. destruct (mapped_local j1 j2 gn x y HG U Nx Ey) as (z & -> & V). exists z. auto.
Qed.
End Mapped.
