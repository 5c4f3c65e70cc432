(** * C68  The affinity test in IEEE arithmetic *)
From Coq Require Import PeanoNat NArith ZArith Bool List Reals Lra Lia.
From Flocq Require Import Core IEEE754.BinarySingleNaN.
From Verif Require Import M_Type M_RefTopo M_RefGeo M_Matrix M_MultiLinear M_Float M_FloatGlobal M_FloatLocal S_Topo S_RefGeo S_Matrix S_MultiLinear
  P_Type P_RSum P_RefTopo2 P_ML1 P_ML2 P_ML3 P_ML4 P_ML5 P_Float P_FloatGlobal2 P_FloatAffine T_RefGeo T_MultiLinear T_Float T_FloatGlobal.
Import ListNotations.
Local Open Scope R_scope.

(** small tolerances are enough to recognise affine corners *)
Lemma affine_small mydim cdim jm jk g : ml_wf mydim g ->
  (forall tol, 0 < tol <= 1 -> exists jt, mlg_affine mydim cdim tol jm jk g = Some (true, jt)) -> exists o M, corners_affine mydim cdim g o M.
Proof.
  intros wf H. exists (nth 0 (ml_corners g) vzero), (edge (ml_id g) (fun i => nth i (ml_corners g) vzero)).
  apply affine_img; [assumption|]. intros i k Hi Hk. set (K := INR (mydim * (mydim - 1) / 2)).
  match goal with |- ?a = ?b => set (A := a); set (B := b) end.
  assert (B1 : forall e, 0 < e <= 1 -> Rabs (A - B) <= K * e).
  { intros e He. destruct (H (e * e)) as (jt & E); [nra|]. destruct (affine_flag mydim cdim (e * e) g wf jm jk) as (jt' & E' & _).
    rewrite E' in E. injection E as EB _.
    exact (affB_error cdim (e * e) (ml_id g) e ltac:(lra) ltac:(lra) mydim _ EB i k Hi Hk). }
  assert (K0 : 0 <= K) by apply pos_INR.
  destruct (Req_dec A B) as [|NE]; [assumption|]. exfalso. assert (P : 0 < Rabs (A - B)) by (apply Rabs_pos_lt; lra).
  set (e := Rmin 1 (Rabs (A - B) / (2 * (K + 1)))). assert (Z : 0 < Rabs (A - B) / (2 * (K + 1))) by (apply Rdiv_lt_0_compat; lra).
  assert (E0 : 0 < e <= 1) by (unfold e; split; [apply Rmin_glb_lt; lra|apply Rmin_l]).
  specialize (B1 e E0). assert (E1 : e <= Rabs (A - B) / (2 * (K + 1))) by apply Rmin_r.
  assert (K * e <= K * (Rabs (A - B) / (2 * (K + 1)))) by (apply Rmult_le_compat_l; assumption).
  assert (K * (Rabs (A - B) / (2 * (K + 1))) < Rabs (A - B)); [|lra].
  apply (Rmult_lt_reg_r (2 * (K + 1))); [lra|]. field_simplify; [|lra]. nra.
Qed.

(** If the coordinates of the corners are integers with at most prec-2 bits, affine() in floating
    point arithmetic answers true exactly for the corners of an affine image of the reference
    element, and the matrix it computes is the exact one, whatever the exponent range is (the
    squares may overflow). *)
Theorem C68_affine_integers : forall prec emax (Hp : Prec_gt_0 prec) (He : Prec_lt_emax prec emax), (6 <= prec)%Z ->
  forall id dim cdim jk jm (corners : list (nat -> binary_float prec emax)), (id < bit dim)%N -> length corners = size id dim dim ->
  (forall c k, In c corners -> (k < cdim)%nat -> is_finite (c k) = true /\ exists z, B2R (c k) = IZR z /\ (Z.abs z < 2 ^ (prec - 2))%Z) ->
  exists b cit jt, fml_affine prec emax Hp He cdim id dim jk dim corners jm = Some (b, cit, jt)
    /\ (b = true <-> exists (o : Vec) (M : Mat), forall i c p, nth_error corners i = Some c -> nth_error (referenceCorners id dim) i = Some p ->
          forall k, (k < cdim)%nat -> B2R (c k) = o k + rsum dim (fun j => M j k * p j))
    /\ (forall (o : Vec) (M : Mat), (forall i c p, nth_error corners i = Some c -> nth_error (referenceCorners id dim) i = Some p ->
          forall k, (k < cdim)%nat -> B2R (c k) = o k + rsum dim (fun j => M j k * p j)) ->
        forall j k, (j < dim)%nat -> (k < cdim)%nat -> is_finite (jt j k) = true /\ B2R (jt j k) = M j k).
Proof.
  intros prec emax Hp He H6 id dim cdim jk jm corners Hid HL HI.
  destruct (re_infos_spec id dim Hid) as (rr & ER & _).
  set (g := {| ml_id := id; ml_ref := rr; ml_corners := map (fun (c : nat -> binary_float prec emax) k => B2R (c k)) corners |}).
  assert (wf : ml_wf dim g) by (split; [exact Hid|split; [exact ER|cbn [g ml_corners ml_id]; now rewrite map_length]]).
  assert (F2 : Forall2 (fun c v => forall k, (k < cdim)%nat -> intB prec emax (prec - 2) (c k) (v k)) corners (ml_corners g)).
  { cbn [g ml_corners]. clear - HI. induction corners as [|c cs IH]; [constructor|]. cbn [map]. constructor.
    - intros k Hk. destruct (HI c k (or_introl eq_refl) Hk) as (F & z & E & B). split; [split; [exact F|reflexivity]|exists z; now split].
    - apply IH. intros c' k Hc Hk. apply HI; [now right|exact Hk]. }
  assert (SIM : forall tol, 0 < tol <= 1 -> exists b cit jt rt, fml_affine prec emax Hp He cdim id dim jk dim corners jm = Some (b, cit, jt)
    /\ mlg_affine dim cdim tol mzero mzero g = Some (b, rt) /\ (b = true -> forall i k, (i < dim)%nat -> (k < cdim)%nat -> is_finite (jt i k) = true /\ B2R (jt i k) = rt i k)).
  { intros tol Ht. pose proof (affine_sim prec emax Hp He H6 cdim id dim tol Ht jk mzero dim corners (ml_corners g) jm mzero F2) as S.
    destruct (affine_flag dim cdim tol g wf mzero mzero) as (rt & ET & _). unfold mlg_affine in ET |- *. cbn [g ml_id] in ET |- *.
    destruct (fml_affine _ _ _ _ _ _ _ _ _ corners jm) as [[[b cit] jt]|], (ml_affine _ _ _ _ _ _ _ _) as [[[b' c'] rt']|]; try (exfalso; exact S); try discriminate.
    destruct S as (<- & _ & S). exists b, cit, jt, rt'. split; [reflexivity|]. split; [reflexivity|]. intros Hb i k Hi Hk. exact (proj1 (S Hb i k Hi Hk)). }
  destruct (SIM 1 ltac:(lra)) as (b & cit & jt & rt & E1 & E2 & E3). exists b, cit, jt. split; [exact E1|].
  assert (CA : forall o M, (forall i c p, nth_error corners i = Some c -> nth_error (referenceCorners id dim) i = Some p ->
          forall k, (k < cdim)%nat -> B2R (c k) = o k + rsum dim (fun j => M j k * p j)) <-> corners_affine dim cdim g o M).
  { intros o M. unfold corners_affine. cbn [g ml_corners ml_id]. split; intros H i c p Hc Hr k Hk.
    - rewrite nth_error_map in Hc. destruct (nth_error corners i) as [c'|] eqn:N; [|discriminate]. injection Hc as <-. now apply (H i c' p).
    - apply (H i (fun k => B2R (c k)) p); auto. now rewrite nth_error_map, Hc. }
  split; [split|].
  - intros ->. destruct (affine_small dim cdim mzero mzero g wf) as (o & M & H).
    + intros tol Ht. destruct (SIM tol Ht) as (b & cit' & jt' & rt' & F1 & F3 & _). rewrite E1 in F1. injection F1 as <- <- <-. eauto.
    + exists o, M. now apply CA.
  - intros (o & M & H). apply CA in H. destruct (C32_affine_detected dim cdim 1 mzero mzero g o M ltac:(lra) wf H) as (t & T & _). rewrite E2 in T. now injection T as ->.
  - intros o M H j k Hj Hk. apply CA in H. destruct (C32_affine_detected dim cdim 1 mzero mzero g o M ltac:(lra) wf H) as (t & T & V).
    rewrite E2 in T. injection T as -> ->. destruct (E3 eq_refl j k Hj Hk) as (G1 & G2). split; [exact G1|]. rewrite G2. now apply V.
Qed.
Print Assumptions C68_affine_integers.


(** Every affine image of the reference element with finite corners is recognised, in every
    format: equal differences are rounded to equal numbers.  The rows are the rounded columns of
    the map. *)
Theorem C68_affine_detected : forall prec emax (Hp : Prec_gt_0 prec) (He : Prec_lt_emax prec emax), (6 <= prec)%Z ->
  forall id dim cdim jk jm (corners : list (nat -> binary_float prec emax)) (o : Vec) (M : Mat), (id < bit dim)%N -> length corners = size id dim dim ->
  (forall c k, In c corners -> (k < cdim)%nat -> is_finite (c k) = true) ->
  (forall i c p, nth_error corners i = Some c -> nth_error (referenceCorners id dim) i = Some p ->
     forall k, (k < cdim)%nat -> B2R (c k) = o k + rsum dim (fun j => M j k * p j)) ->
  exists jt, fml_affine prec emax Hp He cdim id dim jk dim corners jm = Some (true, [], jt)
    /\ forall j k, (j < dim)%nat -> (k < cdim)%nat ->
         let r := round radix2 (SpecFloat.fexp prec emax) (round_mode mode_NE) (M j k) in
         Rabs r < bpow radix2 emax -> is_finite (jt j k) = true /\ B2R (jt j k) = r.
Proof.
  intros prec emax Hp He H6 id dim cdim jk jm corners o M Hid HL HF HA.
  destruct (re_infos_spec id dim Hid) as (rr & ER & _).
  set (g := {| ml_id := id; ml_ref := rr; ml_corners := map (fun (c : nat -> binary_float prec emax) k => B2R (c k)) corners |}).
  assert (wf : ml_wf dim g) by (split; [exact Hid|split; [exact ER|cbn [g ml_corners ml_id]; now rewrite map_length]]).
  assert (CA : corners_affine dim cdim g o M).
  { unfold corners_affine. cbn [g ml_corners ml_id]. intros i c p Hc Hr k Hk.
    rewrite nth_error_map in Hc. destruct (nth_error corners i) as [c'|] eqn:N; [|discriminate]. injection Hc as <-. now apply (HA i c' p). }
  apply affine_img in CA; [|exact wf]. rewrite size_lt in HL.
  pose (fz := fun _ : nat => B754_zero false : binary_float prec emax).
  assert (AI : aff_image cdim id dim (fun i k => B2R (nth i corners fz k)) o M).
  { intros i k Hi Hk. pose proof (CA i k Hi Hk) as Q. change (ml_id g) with id in Q. rewrite <- Q.
    exact (eq_sym (f_equal (fun v => v k) (map_nth (fun (c : nat -> binary_float prec emax) k => B2R (c k)) corners fz i))). }
  assert (FI : forall i k, (i < nv (lt id dim))%nat -> (k < cdim)%nat -> is_finite (nth i corners fz k) = true)
    by (intros i k Hi Hk; apply HF; [apply nth_In; lia|exact Hk]).
  destruct (exact_affine prec emax Hp He H6 cdim id dim jk fz dim corners jm o M (le_n _) ltac:(lia) FI AI) as (jt & E & V).
  exists jt. split; [rewrite E; do 2 f_equal; f_equal; apply skipn_all2; lia|]. intros j k Hj Hk r Hr. rewrite V by assumption.
  pose proof (image_edge cdim id dim _ o M j k AI Hj Hk) as G. unfold edge in G. pose proof (nv_mono id j dim Hj) as Mn. pose proof (nv_pos (lt id dim)) as Np.
  pose proof (Bminus_correct prec emax Hp He mode_NE (nth (nv (lt id j)) corners fz k) (nth 0 corners fz k) (FI _ _ Mn Hk) (FI _ _ Np Hk)) as C.
  rewrite G in C. fold r in C. rewrite Rlt_bool_true in C by exact Hr. destruct C as (C1 & C2 & _). split; assumption.
Qed.
Print Assumptions C68_affine_detected.

(** corners that are not finite: the comparison with NaN is false, and a quadrilateral one of whose
    corners is NaN counts as affine *)
Definition infq : list (nat -> binary_float 24 128) :=
  [pt2 (sgl 0 0) (sgl 0 0); pt2 (sgl 1 0) (sgl 0 0); pt2 (sgl 0 0) (sgl 1 0); pt2 B754_nan B754_nan].
Theorem C68_affine_nan_refuted : exists corners : list (nat -> binary_float 24 128), length corners = size 3 2 2
  /\ (forall i, (i < 3)%nat -> forall c k, nth_error corners i = Some c -> is_finite (c k) = true)
  /\ (exists c, nth_error corners 3 = Some c /\ is_finite (c 0%nat) = false /\ is_finite (c 1%nat) = false)
  /\ forall jk jm, option_map (fun '(b, _, _) => b) (fml_affine 24 128 p24 e128 2 3 2 jk 2 corners jm) = Some true.
Proof.
  exists infq. split; [reflexivity|]. split.
  { intros i Hi c k. destruct i as [|[|[|]]]; [| | |lia]; cbn; intros [= <-]; destruct k; reflexivity. }
  split; [eexists; split; [reflexivity|split; reflexivity]|]. intros jk jm. vm_compute. reflexivity.
Qed.
Print Assumptions C68_affine_nan_refuted.

(** integer corners: a parallelogram and a trapezoid *)
Example C68_affine_example :
  option_map (fun '(b, _, _) => b) (fml_affine 24 128 p24 e128 2 3 2 (fun _ => zro) 2
    [pt2 (sgl 1 0) (sgl 1 0); pt2 (sgl 5 0) (sgl 2 0); pt2 (sgl 0 0) (sgl 7 0); pt2 (sgl 4 0) (sgl 8 0)] (fun _ => zro)) = Some true
  /\ option_map (fun '(b, _, _) => b) (fml_affine 24 128 p24 e128 2 3 2 (fun _ => zro) 2
    [pt2 (sgl 1 0) (sgl 1 0); pt2 (sgl 5 0) (sgl 2 0); pt2 (sgl 0 0) (sgl 7 0); pt2 (sgl 4 0) (sgl 9 0)] (fun _ => zro)) = Some false.
Proof. split; vm_compute; reflexivity. Qed.
