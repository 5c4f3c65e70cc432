(** C62: volume() of multilinear geometries (multilineargeometry.hh:355-366) is the integral of
    integrationElement() for affine geometries, for planar quadrilaterals and for pyramids over
    them; it is not for other geometries. *)
From Coq Require Import PeanoNat NArith Lia Bool List Reals Lra FunctionalExtensionality.
From Coquelicot Require Import Coquelicot.
From Verif Require Import M_Type M_RefTopo M_RefGeo M_Matrix M_MultiLinear S_Topo S_RefGeo S_Matrix S_MultiLinear P_Topo P_RSum P_RefGeo P_RefGeo2 P_RefGeo3
  P_Det P_MxBridge P_DetInv P_Matrix P_Matrix3 P_Matrix4 P_RefVol P_ML1 P_ML2 P_ML3 P_ML5 P_RefTopo2 P_Volume T_RefGeo T_MultiLinear.
Import ListNotations.
Local Open Scope R_scope.

(** A pyramid over a pyramid over ... over a planar quadrilateral (n = 2: the quadrilateral,
    n = 3: the pyramid).  If the Jacobian determinant has one sign at the four corners of the
    base, volume() is the integral of the integration element over the reference element. *)
Theorem C62_quad_cone :
  forall n tol s jm jk j1 j2 g, (2 <= n <= 13)%nat -> 0 <= tol < 1/2 -> ml_wf n g -> ml_id g = 2%N \/ ml_id g = 3%N -> s = 1 \/ s = -1 ->
    (forall x J, (x 0%nat = 0 \/ x 0%nat = 1) -> (x 1%nat = 0 \/ x 1%nat = 1) -> (forall k, (2 <= k)%nat -> x k = 0) ->
       mlg_jacobianTransposed n n 0 jm jk g x = Some J -> 0 < s * detR n J \/ ((n <= 3)%nat /\ 0 <= s * detR n J)) ->
    exists v, mlg_volume n n tol jm jk j1 j2 g = Some v /\
      (exists D, forall x, inside_ref n g x -> smooth 0 (topo_of (ml_id g) n) x -> mlg_integrationElement n n 0 jm jk j1 j2 g x = Some (D x)) /\
      forall D, (forall x, inside_ref n g x -> smooth 0 (topo_of (ml_id g) n) x -> mlg_integrationElement n n 0 jm jk j1 j2 g x = Some (D x)) ->
        v = Iint (topo_of (ml_id g) n) D.
Proof.
  intros n tol s jm jk j1 j2 g Hn Ht wf Hid Hs HC.
  assert (exists m, n = (m + 2)%nat) as [m ->] by (exists (n - 2)%nat; lia).
  set (cs := fun i => nth i (ml_corners g) vzero). destruct (cone_det m cs) as (q & Hq).
  assert (C : forall u v, (u = 0 \/ u = 1) -> (v = 0 \/ v = 1) -> 0 < s * bil q u v \/ ((m + 2 <= 3)%nat /\ 0 <= s * bil q u v)).
  { intros u v Hu Hv. set (x := fun k => match k with O => u | 1%nat => v | _ => 0 end).
    assert (B : forall l, base l x = (u, v)).
    { induction l as [|l IH]; [reflexivity|]. cbn [base]. rewrite <- IH. apply base_ext. intros k Hk.
      replace (x (l + 2)%nat) with 0 by (replace (l + 2)%nat with (S (S l)) by lia; reflexivity). field. }
    assert (Sx : forall l, smooth 0 (pyrs l) x).
    { induction l as [|l IH]; [exact I|]. cbn [pyrs smooth]. right. rewrite tdim_pyrs. replace (x (l + 2)%nat) with 0 by (replace (l + 2)%nat with (S (S l)) by lia; reflexivity).
      split; [rewrite Rabs_pos_eq; lra|]. apply (smooth_ext 0 (pyrs l) x); [|assumption]. intros. field. }
    destruct (cone_jt (ml_id g) m g Hid eq_refl wf 0 (m + 2) jm jk x (Rle_refl 0) (smooth_T (ml_id g) m Hid x (Sx m))) as (J & EJ & VJ).
    rewrite B in VJ. cbn [fst snd] in VJ.
    replace (bil q u v) with (detR (m + 2) J) by (rewrite <- Hq; apply detR_ext; exact VJ).
    apply (HC x J Hu Hv); [|exact EJ]. intros [|[|k]] Hk; [lia|lia|reflexivity]. }
  assert (NN : forall u v, 0 <= u <= 1 -> 0 <= v <= 1 -> 0 <= s * bil q u v).
  { apply bil_nonneg. intros u v Hu Hv. destruct (C u v Hu Hv); lra. }
  assert (OK : forall u v, 0 <= u <= 1 -> 0 <= v <= 1 -> bil q u v <> 0 \/ (m + 2)%nat = 2%nat \/ (m + 2)%nat = 3%nat).
  { intros u v Hu Hv. destruct (le_lt_dec (m + 2) 3) as [L|L]; [right; lia|]. left. intro E.
    assert (P : 0 < s * bil q u v); [|rewrite E in P; lra]. apply bil_pos; auto. intros u' v' Hu' Hv'. destruct (C u' v' Hu' Hv') as [P|[P _]]; [exact P|lia]. }
  assert (IE : forall tol' x, 0 <= tol' -> smooth tol' (topo_of (ml_id g) (m + 2)) x -> 0 <= fst (base m x) <= 1 /\ 0 <= snd (base m x) <= 1 ->
     mlg_integrationElement (m + 2) (m + 2) tol' jm jk j1 j2 g x = Some (Rabs (bil q (fst (base m x)) (snd (base m x))))).
  { intros tol' x Ht' Sx [Hu Hv]. unfold mlg_integrationElement.
    destruct (cone_jt (ml_id g) m g Hid eq_refl wf tol' (m + 2) jm jk x Ht' Sx) as (J & EJ & VJ). rewrite EJ. cbn [obind].
    assert (DJ : detR (m + 2) J = bil q (fst (base m x)) (snd (base m x))) by (rewrite <- Hq; apply detR_ext; exact VJ).
    rewrite sqrtDet_square; rewrite DJ; [reflexivity|]. now apply OK. }
  assert (IN : forall x, inside_ref (m + 2) g x -> smooth 0 (topo_of (ml_id g) (m + 2)) x -> 0 <= fst (base m x) <= 1 /\ 0 <= snd (base m x) <= 1).
  { intros x HI Sx. apply (inside_T (m + 2) g) in HI. apply insideT_lt in HI. rewrite (lt_pyrs _ Hid m) in HI. apply base_in; [exact HI|].
    apply smooth_lt in Sx. rewrite (lt_pyrs _ Hid m) in Sx. clear -Sx. revert x Sx. induction m as [|m IH]; intros x; [intro; exact I|].
    cbn [pyrs smoothC smooth]. intros [H1 H2]. right. auto. }
  destruct (center_spec (m + 2) g wf) as (p & EP & VP). set (T := topo_of (ml_id g) (m + 2)) in *.
  assert (BP : base m p = (1/2, 1/2)).
  { rewrite <- (base_mean _ Hid m). apply base_ext. intros k Hk. now rewrite VP by assumption. }
  assert (SP : smooth tol T p).
  { apply (smooth_ext tol T (meanT T)); [|apply meanT_smooth; lra]. intros k Hk. symmetry. apply VP. unfold T in Hk. now rewrite tdim_topo in Hk. }
  exists (Rabs (bil q (1/2) (1/2)) * volumeT T). split; [|split].
  - unfold mlg_volume. rewrite EP. cbn [obind]. rewrite (IE tol p (proj1 Ht) SP); rewrite BP; cbn [fst snd obind]; [|lra].
    now rewrite C21_volume_small_dimension by lia.
  - eexists. intros x HI Sx. apply IE; auto using Rle_refl.
  - intros D HD. replace (Iint T D) with (Iint (pyrs m) D) by (unfold T; now rewrite <- (Iint_lt (ml_id g)), (lt_pyrs _ Hid m)).
    assert (VT : volumeT T = volumeT (pyrs m)) by (unfold T, volumeT; now rewrite <- (Iint_lt (ml_id g)), (lt_pyrs _ Hid m)).
    assert (AB : forall u v, 0 <= u <= 1 -> 0 <= v <= 1 -> Rabs (bil q u v) = s * bil q u v).
    { intros u v Hu Hv. assert (P := NN u v Hu Hv). destruct Hs as [-> | ->].
      - rewrite Rabs_pos_eq; lra.
      - rewrite Rabs_left1; lra. }
    rewrite (Iint_ext_in (pyrs m) D (fun x => bil (let '(a, b, c, d) := q in (s * a, s * b, s * c, s * d)) (fst (base m x)) (snd (base m x)))).
    + rewrite Iint_pyrs, <- bil_scal, <- AB, VT by lra. ring.
    + intros x Hx Sx. assert (HI : inside_ref (m + 2) g x) by (apply (inside_T (m + 2) g), insideT_lt; now rewrite (lt_pyrs _ Hid m)).
      assert (ST := smooth_T (ml_id g) m Hid x Sx). assert (B := IN x HI ST). assert (E := HD x HI ST). rewrite (IE 0 x (Rle_refl 0) ST B) in E.
      rewrite <- bil_scal, <- AB by tauto. congruence.
Qed.
Print Assumptions C62_quad_cone.

(** affine geometries of any dimension below 14: the integrand is constant *)
Theorem C62_affine :
  forall mydim cdim tol jm jk j1 j2 g o M, (mydim <= 13)%nat -> 0 < tol < 1/2 -> ml_wf mydim g -> corners_affine mydim cdim g o M -> row_independent mydim cdim M ->
    exists v, mlg_volume mydim cdim tol jm jk j1 j2 g = Some v /\ 0 < v /\
      (exists D, forall x, inside_ref mydim g x -> mlg_integrationElement mydim cdim 0 jm jk j1 j2 g x = Some (D x)) /\
      forall D, (forall x, inside_ref mydim g x -> smooth 0 (topo_of (ml_id g) mydim) x -> mlg_integrationElement mydim cdim 0 jm jk j1 j2 g x = Some (D x)) ->
        v = Iint (topo_of (ml_id g) mydim) D.
Proof.
  intros mydim cdim tol jm jk j1 j2 g o M Hd Ht wf HA HM. set (T := topo_of (ml_id g) mydim).
  set (mu := sqrt (detR mydim (mmul cdim M (mtr M)))).
  assert (PM : 0 < detR mydim (mmul cdim M (mtr M))) by (apply spd_det_pos, gram_spd; exact HM).
  assert (IE : forall tol' x, 0 <= tol' < 1 -> nice mydim tol' g x -> mlg_integrationElement mydim cdim tol' jm jk j1 j2 g x = Some mu).
  { intros tol' x Ht' Hx. destruct (affine_jt mydim cdim tol' Ht' g wf jm jk o M x HA Hx) as (J & EJ & VJ).
    unfold mlg_integrationElement. rewrite EJ. cbn [obind].
    assert (HJ : row_independent mydim cdim J) by (apply (rowind_meq mydim cdim M); [intros i k Hi Hk; symmetry; now apply VJ|exact HM]).
    destruct (sqrtDetAAT_spec mydim cdim J j1 j2 (or_introl HJ)) as (s & E & P & V). rewrite E. f_equal. unfold mu. symmetry.
    rewrite (@detR_ext mydim _ (mmul cdim J (mtr J))).
    - rewrite <- V. now apply sqrt_square.
    - intros i k Hi Hk. unfold mmul, mtr. apply rsum_ext. intros l Hl. now rewrite !VJ by assumption. }
  destruct (center_nice mydim tol g ltac:(lra) wf) as (p & EP & NP).
  assert (PV : 0 < volumeT T) by (unfold T; rewrite volumeT_tvol; apply tvol_pos).
  exists (mu * volumeT T). split; [|split; [|split]].
  - unfold mlg_volume. rewrite EP. cbn [obind]. rewrite (IE tol p) by (try lra; assumption). cbn [obind]. now rewrite C21_volume_small_dimension by lia.
  - apply Rmult_lt_0_compat; [now apply sqrt_lt_R0|exact PV].
  - exists (fun _ => mu). intros x Hx. apply IE; [lra|]. apply nice_inside; [lra|apply regular_0|exact Hx].
  - intros D HD. rewrite (Iint_ext_in T D (fun _ => mu)).
    + now rewrite Iint_const.
    + intros x Hx Sx. assert (HI : inside_ref mydim g x) by (apply inside_T; exact Hx). assert (E := HD x HI Sx).
      rewrite IE in E; [congruence|lra|]. apply nice_inside; [lra|apply regular_0|exact HI].
Qed.
Print Assumptions C62_affine.

(** ** Quadrilaterals in the plane *)
(** the Jacobian determinant at (u,v), from the corners *)
Definition qdet (c0 c1 c2 c3 : Vec) (u v : R) : R :=
  let e k := c0 k - c1 k - c2 k + c3 k in
  (c1 0%nat - c0 0%nat + v * e 0%nat) * (c2 1%nat - c0 1%nat + u * e 1%nat) - (c1 1%nat - c0 1%nat + v * e 1%nat) * (c2 0%nat - c0 0%nat + u * e 0%nat).
Lemma quad_corners g : ml_wf 2 g -> ml_id g = 2%N \/ ml_id g = 3%N -> exists c0 c1 c2 c3, ml_corners g = [c0; c1; c2; c3].
Proof.
  intros (_ & _ & L) H. assert (L4 : length (ml_corners g) = 4%nat) by (destruct H as [H|H]; rewrite H in L; rewrite L; reflexivity).
  destruct (ml_corners g) as [|c0 [|c1 [|c2 [|c3 [|? ?]]]]]; try discriminate. now exists c0, c1, c2, c3.
Qed.
Lemma quad_jt g tol jm jk x c0 c1 c2 c3 : 0 <= tol -> ml_wf 2 g -> ml_id g = 2%N \/ ml_id g = 3%N -> ml_corners g = [c0; c1; c2; c3] ->
  exists J, mlg_jacobianTransposed 2 2 tol jm jk g x = Some J /\ detR 2 J = qdet c0 c1 c2 c3 (x 0%nat) (x 1%nat).
Proof.
  intros Ht wf Hid EC.
  destruct (cone_jt (ml_id g) 0 g Hid eq_refl wf tol 2 jm jk x Ht) as (J & EJ & VJ).
  { destruct Hid as [-> | ->]; cbn; auto. }
  exists J. split; [exact EJ|]. rewrite detR_2, !VJ by lia. rewrite EC. cbn [base fst snd]. unfold coneM, qrow, dd, qdet. cbn [nth]. ring.
Qed.
Lemma quad_intEl g tol jm jk j1 j2 x c0 c1 c2 c3 : 0 <= tol -> ml_wf 2 g -> ml_id g = 2%N \/ ml_id g = 3%N -> ml_corners g = [c0; c1; c2; c3] ->
  mlg_integrationElement 2 2 tol jm jk j1 j2 g x = Some (Rabs (qdet c0 c1 c2 c3 (x 0%nat) (x 1%nat))).
Proof.
  intros Ht wf Hid EC. unfold mlg_integrationElement. destruct (quad_jt g tol jm jk x c0 c1 c2 c3 Ht wf Hid EC) as (J & -> & VJ).
  cbn [obind]. rewrite sqrtDet_square by auto. now rewrite VJ.
Qed.

(** half the cross product of the diagonals, whatever the shape *)
Theorem C62_diagonals :
  forall tol jm jk j1 j2 g c0 c1 c2 c3, 0 <= tol -> ml_wf 2 g -> ml_id g = 2%N \/ ml_id g = 3%N -> ml_corners g = [c0; c1; c2; c3] ->
    mlg_volume 2 2 tol jm jk j1 j2 g =
      Some (Rabs ((c3 0%nat - c0 0%nat) * (c2 1%nat - c1 1%nat) - (c3 1%nat - c0 1%nat) * (c2 0%nat - c1 0%nat)) / 2).
Proof.
  intros tol jm jk j1 j2 g c0 c1 c2 c3 Ht wf Hid EC. unfold mlg_volume.
  destruct (center_spec 2 g wf) as (p & EP & VP). rewrite EP. cbn [obind]. rewrite (quad_intEl g tol jm jk j1 j2 p c0 c1 c2 c3) by assumption. cbn [obind].
  assert (B := base_mean _ Hid 0). change (0 + 2)%nat with 2%nat in B.
  assert (B0 : meanT (topo_of (ml_id g) 2) 0%nat = 1/2) by exact (f_equal fst B). assert (B1 : meanT (topo_of (ml_id g) 2) 1%nat = 1/2) by exact (f_equal snd B).
  rewrite !VP, B0, B1 by lia.
  rewrite C21_volume_small_dimension by lia. rewrite volumeT_mom. f_equal.
  replace (mom (topo_of (ml_id g) 2) (fun _ => 0%nat)) with 1.
  - rewrite Rmult_1_r. replace (Rabs ((c3 0%nat - c0 0%nat) * (c2 1%nat - c1 1%nat) - (c3 1%nat - c0 1%nat) * (c2 0%nat - c1 0%nat)) / 2) with
      (Rabs (((c3 0%nat - c0 0%nat) * (c2 1%nat - c1 1%nat) - (c3 1%nat - c0 1%nat) * (c2 0%nat - c1 0%nat)) * / 2)).
    + f_equal. unfold qdet. field.
    + rewrite Rabs_mult. rewrite (Rabs_pos_eq (/ 2)) by lra. reflexivity.
  - destruct Hid as [-> | ->]; cbn -[Beta]; rewrite !Beta_val; simpl; field.
Qed.
Print Assumptions C62_diagonals.

(** the map of a planar quadrilateral is regular on the closed square exactly if the
    determinants at the four corners have one strict sign; it is then one-to-one *)
Theorem C62_regular :
  forall tol jm jk j1 j2 g, 0 <= tol -> ml_wf 2 g -> ml_id g = 2%N \/ ml_id g = 3%N ->
    ((forall x, inside_ref 2 g x -> exists d, mlg_integrationElement 2 2 tol jm jk j1 j2 g x = Some d /\ 0 < d) <->
     exists s, (s = 1 \/ s = -1) /\
       forall p J, In p (referenceCorners (ml_id g) 2) -> mlg_jacobianTransposed 2 2 tol jm jk g p = Some J -> 0 < s * detR 2 J).
Proof.
  intros tol jm jk j1 j2 g Ht wf Hid. destruct (quad_corners g wf Hid) as (c0 & c1 & c2 & c3 & EC).
  set (f := qdet c0 c1 c2 c3).
  assert (IN : forall x, inside_ref 2 g x <-> 0 <= x 0%nat <= 1 /\ 0 <= x 1%nat <= 1).
  { intro x. rewrite inside_T, insideT_lt. change 2%nat with (0 + 2)%nat at 1. rewrite (lt_pyrs _ Hid 0). cbn. tauto. }
  assert (CN : forall p, In p (referenceCorners (ml_id g) 2) -> (p 0%nat = 0 \/ p 0%nat = 1) /\ (p 1%nat = 0 \/ p 1%nat = 1)).
  { intros p Hp. destruct Hid as [H|H]; rewrite H in Hp; cbn in Hp; repeat destruct Hp as [<-|Hp]; try contradiction; cbn; unfold vzero, upd; cbn; lra. }
  assert (CM : forall u v, (u = 0 \/ u = 1) -> (v = 0 \/ v = 1) -> exists p, In p (referenceCorners (ml_id g) 2) /\ p 0%nat = u /\ p 1%nat = v).
  { intros u v Hu Hv. destruct Hid as [H|H]; rewrite H; cbn; destruct Hu as [-> | ->], Hv as [-> | ->];
    first [eexists; split; [left; reflexivity|cbn; unfold vzero; split; reflexivity]|eexists; split; [right; left; reflexivity|cbn; unfold vzero; split; reflexivity]|eexists; split; [right; right; left; reflexivity|cbn; unfold vzero; split; reflexivity]|eexists; split; [right; right; right; left; reflexivity|cbn; unfold vzero; split; reflexivity]]. }
  assert (BL : exists q, forall u v, f u v = bil q u v).
  { set (A := c1 0%nat - c0 0%nat). set (B := c2 1%nat - c0 1%nat). set (C := c1 1%nat - c0 1%nat). set (D := c2 0%nat - c0 0%nat).
    set (e0 := c0 0%nat - c1 0%nat - c2 0%nat + c3 0%nat). set (e1 := c0 1%nat - c1 1%nat - c2 1%nat + c3 1%nat).
    exists (A * B - C * D, A * e1 - C * e0, e0 * B - e1 * D, 0). intros u v. unfold bil, f, qdet, A, B, C, D, e0, e1. ring. }
  destruct BL as (q & Hq).
  split.
  - intro H.
    assert (NZ : forall u v, 0 <= u <= 1 -> 0 <= v <= 1 -> f u v <> 0).
    { intros u v Hu Hv E. destruct (H (fun k => match k with O => u | _ => v end)) as (d & Ed & Pd); [apply IN; auto|].
      rewrite (quad_intEl g tol jm jk j1 j2 _ c0 c1 c2 c3 Ht wf Hid EC) in Ed. cbn in Ed. fold f in Ed. rewrite E, Rabs_R0 in Ed. injection Ed as <-. lra. }
    set (s := if Rlt_dec 0 (f 0 0) then 1 else -1). exists s. split; [unfold s; destruct (Rlt_dec 0 (f 0 0)); auto|].
    intros p J Hp EJ. destruct (quad_jt g tol jm jk p c0 c1 c2 c3 Ht wf Hid EC) as (J' & EJ' & VJ). assert (J' = J) by congruence. subst J'. rewrite VJ. fold f.
    destruct (CN p Hp) as [Hu Hv]. set (u := p 0%nat) in *. set (v := p 1%nat) in *.
    assert (U : 0 <= u <= 1) by (destruct Hu as [-> | ->]; lra). assert (V : 0 <= v <= 1) by (destruct Hv as [-> | ->]; lra).
    (* along the segment from the origin corner the function is continuous and has no zero *)
    assert (K : 0 < f 0 0 * f u v).
    { destruct (Rlt_le_dec 0 (f 0 0 * f u v)) as [K|K]; [exact K|exfalso].
      assert (Z := NZ 0 0 ltac:(lra) ltac:(lra)). assert (Z' := NZ u v U V).
      set (h := fun t => f (t * u) (t * v)).
      assert (CT : continuity (fun t => h t * f 0 0)).
      { apply derivable_continuous. unfold h, f, qdet. reg. }
      destruct (IVT_cor (fun t => h t * f 0 0) 0 1 CT ltac:(lra)) as (t & Ht1 & Ht2).
      - unfold h. rewrite !Rmult_0_l, !Rmult_1_l. assert (0 < f 0 0 * f 0 0) by exact (Rsqr_pos_lt _ Z).
        replace (f 0 0 * f 0 0 * (f u v * f 0 0)) with ((f 0 0 * f 0 0) * (f 0 0 * f u v)) by ring.
        generalize (f 0 0 * f 0 0) (f 0 0 * f u v) H0 K. intros a b Ha Hb. nra.
      - apply Rmult_integral in Ht2. destruct Ht2 as [Ht2|Ht2]; [|contradiction]. apply (NZ (t * u) (t * v)); [| |exact Ht2].
        + split; [apply Rmult_le_pos; lra|]. replace 1 with (1 * 1) by ring. apply Rmult_le_compat; lra.
        + split; [apply Rmult_le_pos; lra|]. replace 1 with (1 * 1) by ring. apply Rmult_le_compat; lra. }
    unfold s. destruct (Rlt_dec 0 (f 0 0)) as [P|P].
    + rewrite Rmult_1_l. apply (Rmult_lt_reg_l (f 0 0)); [exact P|]. now rewrite Rmult_0_r.
    + assert (f 0 0 < 0) by (assert (Z := NZ 0 0 ltac:(lra) ltac:(lra)); lra). apply (Rmult_lt_reg_l (- f 0 0)); [lra|]. rewrite Rmult_0_r. lra.
  - intros (s & Hs & HC) x Hx. eexists. split; [now apply (quad_intEl g tol jm jk j1 j2 x c0 c1 c2 c3)|].
    apply IN in Hx. assert (P : 0 < s * f (x 0%nat) (x 1%nat)).
    { rewrite Hq. apply bil_pos; [|tauto|tauto]. intros u v Hu Hv. destruct (CM u v Hu Hv) as (p & Hp & <- & <-). rewrite <- Hq.
      destruct (quad_jt g tol jm jk p c0 c1 c2 c3 Ht wf Hid EC) as (J & EJ & VJ). unfold f. rewrite <- VJ. now apply (HC p J). }
    fold f. apply Rabs_pos_lt. intro E. rewrite E in P. lra.
Qed.
Print Assumptions C62_regular.

Theorem C62_injective :
  forall tol jm jk j1 j2 jv g, 0 <= tol -> ml_wf 2 g -> ml_id g = 2%N \/ ml_id g = 3%N ->
    (forall x, inside_ref 2 g x -> exists d, mlg_integrationElement 2 2 tol jm jk j1 j2 g x = Some d /\ 0 < d) ->
    forall x y z w, inside_ref 2 g x -> inside_ref 2 g y -> mlg_global 2 2 tol jv g x = Some z -> mlg_global 2 2 tol jv g y = Some w ->
      veq 2 z w -> veq 2 x y.
Proof.
  intros tol jm jk j1 j2 jv g Ht wf Hid HI x y z w Hx Hy Ez Ew E. destruct (quad_corners g wf Hid) as (c0 & c1 & c2 & c3 & EC).
  assert (IN : forall x, inside_ref 2 g x <-> 0 <= x 0%nat <= 1 /\ 0 <= x 1%nat <= 1).
  { intro p. rewrite inside_T, insideT_lt. change 2%nat with (0 + 2)%nat at 1. rewrite (lt_pyrs _ Hid 0). cbn. tauto. }
  assert (FV : forall p q, mlg_global 2 2 tol jv g p = Some q -> forall k, (k < 2)%nat ->
     q k = (1 - p 1%nat) * ((1 - p 0%nat) * c0 k + p 0%nat * c1 k) + p 1%nat * ((1 - p 0%nat) * c2 k + p 0%nat * c3 k)).
  { intros p q Hpq k Hk. rewrite (global_spec 2 2 tol g wf) in Hpq. injection Hpq as <-. unfold vset. rewrite (proj2 (Nat.ltb_lt k 2)) by assumption.
    assert (Q := GF_base tol (fun i => nth i (ml_corners g) vzero k) p). unfold GF in Q. rewrite <- nv_T with (id := ml_id g), <- (lt_pyrs _ Hid 0) in Q by assumption.
    unfold comb. refine (eq_trans Q _). rewrite EC. reflexivity. }
  set (mid := fun k => (x k + y k) / 2). apply IN in Hx. apply IN in Hy.
  destruct (HI mid) as (d & Ed & Pd); [apply IN; unfold mid; lra|]. rewrite (quad_intEl g tol jm jk j1 j2 mid c0 c1 c2 c3 Ht wf Hid EC) in Ed. injection Ed as <-.
  assert (NZ : qdet c0 c1 c2 c3 (mid 0%nat) (mid 1%nat) <> 0) by (intro Z; rewrite Z, Rabs_R0 in Pd; lra).
  assert (E0 := E 0%nat ltac:(lia)). assert (E1 := E 1%nat ltac:(lia)).
  rewrite (FV x z Ez), (FV y w Ew) in E0, E1 by lia.
  set (D := qdet c0 c1 c2 c3 (mid 0%nat) (mid 1%nat)) in *.
  set (a := x 0%nat - y 0%nat). set (b := x 1%nat - y 1%nat).
  set (e := fun k => c0 k - c1 k - c2 k + c3 k).
  assert (RR : forall k, a * (c1 k - c0 k + mid 1%nat * e k) + b * (c2 k - c0 k + mid 0%nat * e k) =
    (1 - x 1%nat) * ((1 - x 0%nat) * c0 k + x 0%nat * c1 k) + x 1%nat * ((1 - x 0%nat) * c2 k + x 0%nat * c3 k)
    - ((1 - y 1%nat) * ((1 - y 0%nat) * c0 k + y 0%nat * c1 k) + y 1%nat * ((1 - y 0%nat) * c2 k + y 0%nat * c3 k))).
  { intro k. unfold a, b, e, mid. field. }
  assert (R0 : a * (c1 0%nat - c0 0%nat + mid 1%nat * e 0%nat) + b * (c2 0%nat - c0 0%nat + mid 0%nat * e 0%nat) = 0) by (rewrite RR; lra).
  assert (R1 : a * (c1 1%nat - c0 1%nat + mid 1%nat * e 1%nat) + b * (c2 1%nat - c0 1%nat + mid 0%nat * e 1%nat) = 0) by (rewrite RR; lra).
  assert (A : a * D = 0).
  { replace (a * D) with ((a * (c1 0%nat - c0 0%nat + mid 1%nat * e 0%nat) + b * (c2 0%nat - c0 0%nat + mid 0%nat * e 0%nat)) * (c2 1%nat - c0 1%nat + mid 0%nat * e 1%nat)
       - (a * (c1 1%nat - c0 1%nat + mid 1%nat * e 1%nat) + b * (c2 1%nat - c0 1%nat + mid 0%nat * e 1%nat)) * (c2 0%nat - c0 0%nat + mid 0%nat * e 0%nat)) by (unfold D, qdet; fold e; unfold e; ring).
    rewrite R0, R1. ring. }
  assert (B : b * D = 0).
  { replace (b * D) with ((a * (c1 1%nat - c0 1%nat + mid 1%nat * e 1%nat) + b * (c2 1%nat - c0 1%nat + mid 0%nat * e 1%nat)) * (c1 0%nat - c0 0%nat + mid 1%nat * e 0%nat)
       - (a * (c1 0%nat - c0 0%nat + mid 1%nat * e 0%nat) + b * (c2 0%nat - c0 0%nat + mid 0%nat * e 0%nat)) * (c1 1%nat - c0 1%nat + mid 1%nat * e 1%nat)) by (unfold D, qdet; fold e; unfold e; ring).
    rewrite R0, R1. ring. }
  apply Rmult_integral in A. apply Rmult_integral in B. intros [|[|k]] Hk; [| |lia]; unfold a, b in *; destruct A, B; try contradiction; lra.
Qed.
Print Assumptions C62_injective.

(** ** Where it is not the integral *)
Lemma RInt_param_continuous (f : R -> R -> R) : (forall v, ex_RInt (fun u => f u v) 0 1) -> (forall u v w, Rabs (f u v - f u w) <= Rabs (v - w)) ->
  forall v, continuous (fun v => RInt (fun u => f u v) 0 1) v.
Proof.
  intros HI HL v. apply filterlim_locally. intro eps. exists eps. intros w Hw.
  change (Rabs (RInt (fun u => f u w) 0 1 - RInt (fun u => f u v) 0 1) < eps). change (Rabs (w - v) < eps) in Hw.
  replace (RInt (fun u => f u w) 0 1 - RInt (fun u => f u v) 0 1) with (RInt (fun u => minus (f u w) (f u v)) 0 1) by (rewrite (RInt_minus (V := R_CompleteNormedModule)) by apply HI; reflexivity).
  eapply Rle_lt_trans; [apply (abs_RInt_le_const _ 0 1 (Rabs (w - v)))|lra]; [lra|apply (ex_RInt_minus (V := R_NormedModule)); apply HI|].
  intros t _. apply HL.
Qed.
Lemma sqrt_lipschitz a x y : 0 <= a -> Rabs (sqrt (a + x * x) - sqrt (a + y * y)) <= Rabs (x - y).
Proof.
  intro Ha. assert (X := Rle_0_sqr x). assert (Y := Rle_0_sqr y). unfold Rsqr in *.
  set (p := sqrt (a + x * x)). set (q := sqrt (a + y * y)).
  assert (P0 : 0 <= p) by apply sqrt_pos. assert (Q0 : 0 <= q) by apply sqrt_pos.
  assert (P : p * p = a + x * x) by (apply sqrt_sqrt; lra). assert (Q : q * q = a + y * y) by (apply sqrt_sqrt; lra).
  apply Rsqr_le_abs_0. unfold Rsqr.
  (* p q >= a + x y *)
  assert (PQ : a + x * y <= p * q).
  { destruct (Rle_lt_dec (a + x * y) 0) as [N|N]; [assert (0 <= p * q) by (apply Rmult_le_pos; assumption); lra|].
    apply Rsqr_incr_0_var; [|apply Rmult_le_pos; assumption]. unfold Rsqr.
    replace (p * q * (p * q)) with ((p * p) * (q * q)) by ring. rewrite P, Q. assert (0 <= a * ((x - y) * (x - y))) by (apply Rmult_le_pos; [assumption|apply Rle_0_sqr]). nra. }
  nra.
Qed.
Lemma Iint_square f : Iint (Pri (Pri Pt)) f = RInt (fun v => RInt (fun u => f (fun k => if Nat.eqb k 1 then v else if Nat.eqb k 0 then u else 0)) 0 1) 0 1.
Proof. reflexivity. Qed.
Lemma RInt_poly2 a b c : RInt (fun t => a + b * t + c * (t * t)) 0 1 = a + b / 2 + c / 3.
Proof.
  set (F := fun t => a * t + b * (t * t) / 2 + c * (t * t * t) / 3).
  apply is_RInt_unique. replace (a + b / 2 + c / 3) with (minus (F 1) (F 0)) by (unfold F, minus, plus, opp; simpl; field).
  apply (is_RInt_derive (V := R_CompleteNormedModule) F).
  - intros t _. unfold F. auto_derive; [exact I|]. field.
  - intros t _. apply (ex_derive_continuous (V := R_NormedModule)). auto_derive. exact I.
Qed.

(** a folded quadrilateral: the determinant changes sign *)
Theorem C62_folded_refuted :
  forall tol jm jk j1 j2, 0 <= tol -> exists g v D, ml_wf 2 g /\ ml_id g = 3%N /\ mlg_volume 2 2 tol jm jk j1 j2 g = Some v /\
    (forall x, mlg_integrationElement 2 2 tol jm jk j1 j2 g x = Some (D x)) /\ v < Iint (topo_of (ml_id g) 2) D.
Proof.
  intros tol jm jk j1 j2 Ht.
  set (c0 := fun _ : nat => 0). set (c1 := fun k => if Nat.eqb k 0 then 1 else 0). set (c2 := fun _ : nat => 1). set (c3 := fun k => if Nat.eqb k 1 then 1 else 0).
  destruct (quad_wf c0 c1 c2 c3) as (r & wf). exists (quad c0 c1 c2 c3 r). eexists. exists (fun x => Rabs (1 - 2 * x 1%nat)).
  split; [exact wf|]. split; [reflexivity|]. split; [apply (C62_diagonals tol jm jk j1 j2 _ c0 c1 c2 c3 Ht wf); auto|]. split.
  - intro x. rewrite (quad_intEl _ tol jm jk j1 j2 x c0 c1 c2 c3 Ht wf) by auto. do 2 f_equal. unfold qdet, c0, c1, c2, c3. cbn. ring.
  - change (topo_of (ml_id (quad c0 c1 c2 c3 r)) 2) with (Pri (Pri Pt)). rewrite Iint_square. cbn [Nat.eqb].
    replace (Rabs ((c3 0%nat - c0 0%nat) * (c2 1%nat - c1 1%nat) - (c3 1%nat - c0 1%nat) * (c2 0%nat - c1 0%nat)) / 2) with 0
      by (unfold c0, c1, c2, c3; cbn; replace ((0 - 0) * (1 - 0) - (1 - 0) * (1 - 1)) with 0 by ring; rewrite Rabs_R0; field).
    apply Rlt_le_trans with (RInt (fun v => 1 + (-4) * v + 4 * (v * v)) 0 1); [rewrite RInt_poly2; lra|].
    apply RInt_le; [lra| | |].
    + apply (ex_RInt_continuous (V := R_CompleteNormedModule)). intros z _. apply (ex_derive_continuous (V := R_NormedModule)). auto_derive. exact I.
    + apply (ex_RInt_ext (V := R_NormedModule) (fun v => Rabs (1 - 2 * v))).
      * intros v _. rewrite RInt_const. symmetry. change (scal (1 - 0) (Rabs (1 - 2 * v)) = Rabs (1 - 2 * v)). unfold scal; simpl; unfold mult; simpl. ring.
      * apply (ex_RInt_continuous (V := R_CompleteNormedModule)). intros z _. apply continuous_comp; [|apply continuous_Rabs].
        apply (ex_derive_continuous (V := R_NormedModule)). auto_derive. exact I.
    + intros v Hv. rewrite RInt_const. change (1 + -4 * v + 4 * (v * v) <= (1 - 0) * Rabs (1 - 2 * v)). unfold Rabs. destruct (Rcase_abs (1 - 2 * v)); nra.
Qed.
Print Assumptions C62_folded_refuted.

(** a hexahedron with positive determinant everywhere: the unit cube with its top face
    doubled, of volume 7/3; volume() is 9/4 *)
Definition frustum (r : RefElement) : MLGeo :=
  {| ml_id := 7; ml_ref := r; ml_corners := map (fun '(x, y, z) k => match k with O => x * (1 + z) | 1%nat => y * (1 + z) | _ => z end)
      [(0, 0, 0); (1, 0, 0); (0, 1, 0); (1, 1, 0); (0, 0, 1); (1, 0, 1); (0, 1, 1); (1, 1, 1)] |}.
Theorem C62_hexahedron_refuted :
  forall tol jm jk j1 j2, 0 <= tol -> exists g v D, ml_wf 3 g /\ isCube (GT2 (ml_id g) 3) = true /\ mlg_volume 3 3 tol jm jk j1 j2 g = Some v /\
    (forall x, mlg_integrationElement 3 3 tol jm jk j1 j2 g x = Some (D x)) /\ (forall x, inside_ref 3 g x -> 1 <= D x) /\
    v = 9 / 4 /\ Iint (topo_of (ml_id g) 3) D = 7 / 3.
Proof.
  intros tol jm jk j1 j2 Ht. destruct (re_infos_spec 7 3 ltac:(reflexivity)) as (r & E & _).
  assert (wf : ml_wf 3 (frustum r)) by (repeat split; auto).
  assert (IE : forall x, mlg_integrationElement 3 3 tol jm jk j1 j2 (frustum r) x = Some (Rabs ((1 + x 2%nat) * (1 + x 2%nat)))).
  { intro x. unfold mlg_integrationElement. rewrite (jt_value 3 3 tol _ wf). cbn [obind]. rewrite sqrtDet_square by auto. do 2 f_equal.
    rewrite detR_3. unfold comb. cbn. ring. }
  exists (frustum r), (9/4), (fun x => (1 + x 2%nat) * (1 + x 2%nat)).
  split; [exact wf|]. split; [reflexivity|]. split; [|split; [|split; [|split; [reflexivity|]]]].
  - unfold mlg_volume. destruct (center_spec 3 _ wf) as (p & EP & VP). rewrite EP. cbn [obind]. rewrite IE. cbn [obind]. rewrite VP by lia.
    rewrite C21_volume_small_dimension by lia. rewrite volumeT_mom. f_equal.
    change (topo_of (ml_id (frustum r)) 3) with (Pri (Pri (Pri Pt))). cbn [mom]. rewrite !Beta_val.
    replace (meanT (Pri (Pri (Pri Pt))) 2%nat) with (1/2) by (unfold meanT; cbn -[INR]; unfold vzero; simpl INR; field).
    rewrite Rabs_pos_eq by lra. simpl. field.
  - intro x. rewrite IE. f_equal. apply Rabs_pos_eq. apply Rle_0_sqr.
  - intros x Hx. apply inside_T in Hx. cbn in Hx. nra.
  - change (topo_of (ml_id (frustum r)) 3) with (Pri (Pri (Pri Pt))).
    change (RInt (fun t => Iint (Pri (Pri Pt)) (fun _ => (1 + t) * (1 + t))) 0 1 = 7 / 3).
    rewrite (RInt_ext _ (fun t => 1 + 2 * t + 1 * (t * t))).
    + rewrite RInt_poly2. match goal with |- @eq _ ?a ?b => change (@eq R a b) end. field.
    + intros t _. rewrite Iint_const, volumeT_mom. cbn [mom]. rewrite !Beta_val. match goal with |- @eq _ ?a ?b => change (@eq R a b) end. simpl. field.
Qed.
Print Assumptions C62_hexahedron_refuted.

(** a quadrilateral surface in space *)
Definition saddle (r : RefElement) : MLGeo :=
  {| ml_id := 3; ml_ref := r; ml_corners := map (fun '(x, y, z) k => match k with O => x | 1%nat => y | _ => z end)
      [(0, 0, 0); (1, 0, 0); (0, - (1/2), 1/10); (1, 1/2, 1/10)] |}.
Theorem C62_surface_refuted :
  forall tol jm jk j1 j2, 0 <= tol -> exists g v D, ml_wf 2 g /\ mlg_volume 2 3 tol jm jk j1 j2 g = Some v /\
    (forall x, mlg_integrationElement 2 3 tol jm jk j1 j2 g x = Some (D x)) /\ (forall x, 0 < D x) /\
    v < Iint (topo_of (ml_id g) 2) D.
Proof.
  intros tol jm jk j1 j2 Ht. destruct (re_infos_spec 3 2 ltac:(reflexivity)) as (r & E & _).
  assert (wf : ml_wf 2 (saddle r)) by (repeat split; auto).
  set (f := fun u v => sqrt ((u - 1/2) * (u - 1/2) + 1/100 + (v / 10) * (v / 10))).
  assert (IE : forall x, mlg_integrationElement 2 3 tol jm jk j1 j2 (saddle r) x = Some (f (x 0%nat) (x 1%nat))).
  { intro x. unfold mlg_integrationElement. rewrite (jt_value 2 3 tol _ wf). cbn [obind].
    match goal with |- sqrtDetAAT 2 3 ?A _ _ = _ => set (J := A) end.
    destruct (sqrtDetAAT_spec 2 3 J j1 j2 ltac:(auto)) as (s & Es & Ps & Vs). rewrite Es. f_equal. rewrite <- (sqrt_square s Ps), Vs. unfold f. f_equal.
    rewrite detR_2. unfold J, comb, mmul, mtr. cbn. field. }
  exists (saddle r). eexists. exists (fun x => f (x 0%nat) (x 1%nat)). split; [exact wf|]. split; [|split; [exact IE|split]].
  - unfold mlg_volume. destruct (center_spec 2 _ wf) as (p & EP & VP). rewrite EP. cbn [obind]. rewrite IE. cbn [obind]. rewrite !VP by lia.
    change (topo_of (ml_id (saddle r)) 2) with (Pri (Pri Pt)).
    replace (meanT (Pri (Pri Pt)) 0%nat) with (1/2) by (unfold meanT; cbn -[INR]; unfold vzero; simpl INR; field).
    replace (meanT (Pri (Pri Pt)) 1%nat) with (1/2) by (unfold meanT; cbn -[INR]; unfold vzero; simpl INR; field).
    rewrite C21_volume_small_dimension by lia. reflexivity.
  - intro x. apply sqrt_lt_R0. assert (A := Rle_0_sqr (x 0%nat - 1/2)). assert (B := Rle_0_sqr (x 1%nat / 10)). unfold Rsqr in *. lra.
  - change (topo_of (ml_id (saddle r)) 2) with (Pri (Pri Pt)). rewrite Iint_square. cbn [Nat.eqb].
    assert (POS : forall u v, 1/100 <= (u - 1/2) * (u - 1/2) + 1/100 + (v / 10) * (v / 10)).
    { intros u v. assert (A := Rle_0_sqr (u - 1/2)). assert (B := Rle_0_sqr (v / 10)). unfold Rsqr in *. lra. }
    assert (EX : forall v, ex_RInt (fun u => f u v) 0 1).
    { intro v. apply (ex_RInt_continuous (V := R_CompleteNormedModule)). intros z _. apply (ex_derive_continuous (V := R_NormedModule)).
      unfold f. auto_derive. assert (Q := POS z v). unfold Rminus, Rdiv in *. lra. }
    assert (LB : forall v, 1/6 <= RInt (fun u => f u v) 0 1).
    { intro v. assert (P2 := RInt_poly2 (1/2) (-2) 2). replace (1/2 + -2 / 2 + 2 / 3) with (1/6) in P2 by field. rewrite <- P2.
      apply RInt_le; [lra| |apply EX|].
      - apply (ex_RInt_continuous (V := R_CompleteNormedModule)). intros z _. apply (ex_derive_continuous (V := R_NormedModule)). auto_derive. exact I.
      - intros u Hu. unfold f. apply Rle_trans with (sqrt ((u - 1/2) * (u - 1/2))).
        + rewrite <- (sqrt_square (1/2 + -2 * u + 2 * (u * u))) by (replace (1/2 + -2 * u + 2 * (u * u)) with (2 * ((u - 1/2) * (u - 1/2))) by field; assert (A := Rle_0_sqr (u - 1/2)); unfold Rsqr in A; lra).
          apply sqrt_le_1_alt. replace (1/2 + -2 * u + 2 * (u * u)) with (2 * ((u - 1/2) * (u - 1/2))) by field.
          assert (A := Rle_0_sqr (u - 1/2)). unfold Rsqr in A. set (z := (u - 1/2) * (u - 1/2)) in *. assert (z <= 1/4) by (unfold z; nra). nra.
        + apply sqrt_le_1_alt. assert (B := Rle_0_sqr (v / 10)). unfold Rsqr in B. lra. }
    apply Rlt_le_trans with (1/6).
    + unfold volumeT. rewrite Iint_const, volumeT_mom. cbn [mom]. rewrite !Beta_val. 
      apply Rle_lt_trans with (f (1/2) (1/2)); [right; simpl; field|].
      unfold f. apply Rlt_le_trans with (sqrt ((1/6) * (1/6))); [apply sqrt_lt_1_alt; lra|]. rewrite sqrt_square; lra.
    + assert (P0 := RInt_lin (1/6) 0). replace (1/6 + 0/2) with (1/6) in P0 by field. rewrite <- P0.
      apply RInt_le; [lra| | |intros v _; assert (L := LB v); lra].
      { apply (ex_RInt_continuous (V := R_CompleteNormedModule)). intros z _. apply (ex_derive_continuous (V := R_NormedModule)). auto_derive. exact I. }
      apply (ex_RInt_continuous (V := R_CompleteNormedModule)). intros z _. apply (RInt_param_continuous f EX).
      intros u v w. unfold f. eapply Rle_trans; [apply sqrt_lipschitz; assert (A := Rle_0_sqr (u - 1/2)); unfold Rsqr in A; lra|].
      replace (v / 10 - w / 10) with ((v - w) * / 10) by field. rewrite Rabs_mult, (Rabs_pos_eq (/ 10)) by lra. assert (A := Rabs_pos (v - w)). lra.
Qed.
Print Assumptions C62_surface_refuted.

(** a pyramid over a twisted base *)
Definition twisted (r : RefElement) : MLGeo :=
  {| ml_id := 3; ml_ref := r; ml_corners := map (fun '(x, y, z) k => match k with O => x | 1%nat => y | _ => z end)
      [(0, 0, 0); (2, 0, 0); (0, 1, 0); (1, 1, 1/2); (0, 0, 3)] |}.
Example C62_example : forall jm jk j1 j2, exists g D, ml_wf 3 g /\ ml_id g = 3%N /\ mlg_volume 3 3 (1/1000) jm jk j1 j2 g = Some (19/12) /\
  (forall x, inside_ref 3 g x -> smooth 0 (topo_of 3 3) x -> mlg_integrationElement 3 3 0 jm jk j1 j2 g x = Some (D x)) /\ Iint (topo_of 3 3) D = 19/12.
Proof.
  intros jm jk j1 j2. destruct (re_infos_spec 3 3 ltac:(reflexivity)) as (r & E & _).
  assert (wf : ml_wf 3 (twisted r)) by (repeat split; auto).
  assert (DV : forall tol x, 0 <= tol -> smooth tol (topo_of 3 3) x -> exists J, mlg_jacobianTransposed 3 3 tol jm jk (twisted r) x = Some J /\
     detR 3 J = 6 - 3 * snd (base 1 x) + fst (base 1 x) * snd (base 1 x)).
  { intros tol x Ht Sx. destruct (cone_jt 3 1 (twisted r) (or_intror eq_refl) eq_refl wf tol 3 jm jk x Ht Sx) as (J & EJ & VJ).
    exists J. split; [exact EJ|]. rewrite detR_3, !VJ by lia. unfold coneM, qrow, dd. cbn [twisted ml_corners map nth Nat.add]. field. }
  destruct (C62_quad_cone 3 (1/1000) 1 jm jk j1 j2 (twisted r) ltac:(lia) ltac:(lra) wf (or_intror eq_refl) (or_introl eq_refl)) as (v & Ev & (D & HD) & HI).
  - intros x J Hu Hv Hz EJ. left. destruct (DV 0 x (Rle_refl 0)) as (J' & EJ' & VJ).
    + cbn. right. rewrite (Hz 2%nat) by lia. split; [rewrite Rabs_pos_eq; lra|exact I].
    + assert (J' = J) by congruence. subst J'. rewrite VJ. cbn [base fst snd Nat.add]. rewrite (Hz 2%nat) by lia.
      replace (1 - 0) with 1 by ring. rewrite !Rdiv_1. destruct Hu as [-> | ->], Hv as [-> | ->]; lra.
  - assert (VV : mlg_volume 3 3 (1/1000) jm jk j1 j2 (twisted r) = Some (19/12)).
    { unfold mlg_volume. destruct (center_spec 3 _ wf) as (p & EP & VP). rewrite EP. cbn [obind]. unfold mlg_integrationElement.
      destruct (DV (1/1000) p) as (J & EJ & VJ); [lra| |].
      { apply (smooth_ext _ _ (meanT (topo_of 3 3))); [|apply meanT_smooth; lra]. intros k Hk. symmetry. apply VP. exact Hk. }
      rewrite EJ. cbn [obind]. rewrite sqrtDet_square by auto. cbn [obind]. rewrite VJ.
      assert (BP : base 1 p = (1/2, 1/2)) by (rewrite <- (base_mean 3 (or_intror eq_refl) 1); apply base_ext; intros; now apply VP).
      rewrite BP. cbn [fst snd].
      rewrite Rabs_pos_eq by lra. rewrite C21_volume_small_dimension by lia. rewrite volumeT_mom. change (topo_of (ml_id (twisted r)) 3) with (Pyr (Pri (Pri Pt))).
      cbn [mom tdim degsum Nat.add]. rewrite !Beta_val. f_equal. simpl. field. }
    exists (twisted r), D. split; [exact wf|]. split; [reflexivity|]. split; [exact VV|]. split; [exact HD|].
    transitivity v; [symmetry; now apply HI|congruence].
Qed.
