(** Quadrature sums over the integrands of the divergence theorem. *)
From Coq Require Import NArith ZArith PeanoNat Bool List Lia Reals Lra FunctionalExtensionality.
From Coquelicot Require Import Coquelicot.
From Verif Require Import M_Type M_RefTopo M_RefGeo P_Type P_Type2 S_Topo P_Topo P_RefTopo P_RefTopo2 P_RefTopo3 P_RSum P_RefGeo P_RefGeo2 P_RefGeo3 P_Det P_DetInv P_RefDet S_RefGeo P_RefVol P_RefGeo4 T_RefGeo M_Matrix M_MultiLinear S_Matrix S_MultiLinear P_MxBridge P_Matrix P_Matrix3 P_Matrix4 T_Matrix P_Volume P_ML1 P_ML2 P_ML3 P_ML5 T_RefTopo T_MultiLinear P_Trace S_Trace P_Trace2 T_Trace S_Normal P_Normal P_Normal2 T_Normal
  M_QuadFactory M_Quadrature S_Quad S_Quad1D S_QuadND P_QuadProd P_QuadAll T_Quad S_Gauss P_Gauss P_Gauss2 T_Gauss P_Col1 P_Col2 P_Piola P_ColMap P_Orient T_Div P_KuhnInt S_Disc P_DiscPoly P_RulePts.
Import ListNotations.
Local Open Scope R_scope.

Lemma quad_ext_w pts f h : (forall q, In q pts -> snd q <> 0 -> f (fst q) = h (fst q)) -> quad pts f = quad pts h.
Proof.
  induction pts as [|q pts IH]; intro H; cbn [quad]; [reflexivity|]. rewrite IH by (intros q' I; apply H; now right).
  destruct (Req_dec (snd q) 0) as [E|E]; [unfold QPoint, Vec in *; rewrite E; ring|]. rewrite (H q); [reflexivity|now left|exact E].
Qed.
Lemma rsum_abs n (f : nat -> R) : Rabs (rsum n f) <= rsum n (fun i => Rabs (f i)).
Proof. induction n as [|n IH]; cbn [rsum]; [rewrite Rabs_R0; lra|]. eapply Rle_trans; [apply Rabs_triang|]. lra. Qed.
Lemma quad_close T pts p0 err deg EB F f : exactND 0 T p0 err pts -> 0 <= err -> polyd (tdim T) deg EB f -> (deg <= p0)%nat ->
  (forall q, In q pts -> snd q <> 0 -> F (fst q) = f (fst q)) -> Rabs (quad pts F - Iint T f) <= err * EB.
Proof.
  intros HX He (P & D & HN & E) Hd HF. rewrite (quad_ext_w pts F (peval (tdim T) P)).
  - assert (f = peval (tdim T) P) as -> by (apply functional_extensionality; exact E). rewrite <- IintW_Iint.
    eapply Rle_trans; [apply HX; intros c e I; specialize (D c e I); lia|]. now apply Rmult_le_compat_l.
  - intros q I W. rewrite (HF q I W). apply E.
Qed.

(** what the rules give *)
Section Rules.
Variables (lapack : Z -> nat -> option (list (R * R))) (e : R).
Hypothesis Hl : lapackOk e lapack.

Lemma plain_exact id dim deg r x : plain_rule lapack e id dim deg r x ->
  exactND 0 (topo_of id dim) (Z.to_nat (ru_order x)) (errD 1 e dim) (ru_points x) /\ (deg <= Z.to_nat (ru_order x))%nat /\ 0 <= errD 1 e dim /\
  (forall q, In q (ru_points x) -> insideT (topo_of id dim) (fst q) 1).
Proof.
  intros (V & D & Ty & W & TE & Q & O). destruct (C43_all_rules lapack e r x Hl TE V Q) as (A & B & _). rewrite D, Ty, W in A. rewrite D, Ty in B. cbn [gt_id GT2] in A, B.
  split; [now rewrite Cw0 in A|]. split; [lia|]. split.
  - apply errD_pos; [lra|]. pose proof (tableErr_eps1 (rq_p r) (rq_qt r)). pose proof P_QuadRules.eps1_val. lra.
  - intros q I. specialize (B q I). rewrite corners_verts in B. rewrite <- (tdim_topo_of id dim) in B at 1. now apply in_hull_insideT in B.
Qed.
Lemma plain_placed tol id dim deg r x : 0 <= tol <= / 1024 -> lapackBelow tol lapack -> plain_rule lapack e id dim deg r x -> no_vertices r -> no_end_point r ->
  (forall q, In q (ru_points x) -> smooth tol (topo_of id dim) (fst q)) /\
  (no_edges r -> forall q, In q (ru_points x) -> below tol (topo_of id dim) (fst q)).
Proof.
  intros Ht Hb (V & D & Ty & W & TE & Q & O) NV NE. unfold quadRule in Q. pose proof (valid_inRange r V) as R1. rewrite R1 in Q. unfold no_vertices in NV. unfold no_edges. rewrite D in *.
  destruct dim as [|dim].
  - split; intros; exact Logic.I.
  - assert (Hp : (0 <= rq_p r)%Z) by (unfold inRange in R1; destruct (maxOrder _ _ _); [|discriminate]; rewrite andb_true_iff, Z.leb_le in R1; tauto).
    destruct (factory_placed lapack tol Ht Hb (S dim) _ _ _ _ Hp NV Q) as (A & B & _). rewrite Ty in A, B. cbn [gt_id GT2] in A, B. split; [exact (B NE)|intro N; exact (A NE N)].
Qed.
Lemma plain_weighted tol id dim deg r x : 0 <= tol <= / 1024 -> lapackBelow tol lapack -> plain_rule lapack e id dim deg r x -> no_vertices r ->
  forall q, In q (ru_points x) -> snd q <> 0 -> smooth 0 (topo_of id dim) (fst q).
Proof.
  intros Ht Hb (V & D & Ty & W & TE & Q & O) NV. unfold quadRule in Q. pose proof (valid_inRange r V) as R1. rewrite R1 in Q. unfold no_vertices in NV. rewrite D in *.
  destruct dim as [|dim].
  - intros; exact Logic.I.
  - assert (Hp : (0 <= rq_p r)%Z) by (unfold inRange in R1; destruct (maxOrder _ _ _); [|discriminate]; rewrite andb_true_iff, Z.leb_le in R1; tauto).
    destruct (factory_placed lapack tol Ht Hb (S dim) _ _ _ _ Hp NV Q) as (_ & _ & F). rewrite Ty in F. cbn [gt_id GT2] in F. exact F.
Qed.
End Rules.

(** ** the polynomials behind the integrands *)
Section Core.
Variables (n : nat) (T : Topo) (c : nat -> nat -> R) (Phi : nat -> MPoly) (s : R) (G : nat -> Vec -> R) (H : nat -> nat -> Vec -> R).
Variables (p m : nat) (A B : R).
Hypothesis HT : tdim T = n.
Hypothesis Hn : (1 <= n)%nat.
Hypothesis HB : 1 <= B.
Hypothesis Hs : s = 1 \/ s = -1.
Hypothesis HG : forall k, (k < n)%nat -> polyd n m B (G k).
Hypothesis HH : forall k j, (k < n)%nat -> (j < n)%nat -> polyd n (m - 1) B (H k j).
Hypothesis HV : forall k x, (k < n)%nat -> smooth 0 T x -> phi T (c k) x = G k x /\ forall j, (j < n)%nat -> dphi T (c k) j x = H k j x.
Hypothesis HP : forall k, (k < n)%nat -> pdegree_le n (Phi k) p /\ pnorm (Phi k) <= A.

Definition gmap (x : Vec) : Vec := fun l => G l x.
Definition hmat (x : Vec) : Mat := fun j k => H k j x.
Definition fe (x : Vec) : R := s * (rsum n (fun k => peval n (pder k (Phi k)) (gmap x)) * detR n (hmat x)).
Definition ffx (f : Face) (x : Vec) : R := s * rsum n (fun j => nrm T f j * detR n (row_put j (fun k => peval n (Phi k) (gmap x)) (hmat x))).
Definition ff (f : Face) (y : Vec) : R := ffx f (Emb T f y).

Lemma s_abs : Rabs s <= 1.
Proof. destruct Hs as [->| ->]; [rewrite Rabs_R1|rewrite Rabs_m1_]; lra. Qed.
Lemma fe_polyd : polyd n (elt_degree n p m) (elt_size n p A B) fe.
Proof.
  unfold fe, elt_degree, elt_size. apply polyd_sign; [exact s_abs|]. apply polyd_mult.
  - apply polyd_rsum_const. intros k Hk. destruct (HP k Hk) as [D N].
    apply (polyd_comp_f n n (peval n (pder k (Phi k))) (p - 1) (INR p * A) gmap m B HB); [exact HG|now apply polyd_pder].
  - apply polyd_det. intros j k Hj Hk. now apply HH.
Qed.
Lemma ffx_polyd f : polyd n (facet_degree n p m) (INR n * (INR (fact n) * (A * B ^ p * B ^ (n - 1)))) (ffx f).
Proof.
  unfold ffx, facet_degree. apply polyd_sign; [exact s_abs|]. apply polyd_rsum_const. intros j Hj.
  apply polyd_sign; [apply nrm_abs|].
  refine (polyd_ext _ _ _ _ _ (polyd_det_row n (m - 1) B (p * m) (A * B ^ p) n j (fun i k x => if Nat.eqb i j then peval n (Phi k) (gmap x) else H k i x) Hj _ _) _).
  - intros k Hk. rewrite Nat.eqb_refl. destruct (HP k Hk) as [D N].
    apply (polyd_comp_f n n (peval n (Phi k)) p A gmap m B HB); [exact HG|]. exists (Phi k). auto.
  - intros i k Hi Hk N. rewrite (proj2 (Nat.eqb_neq i j) N). now apply HH.
  - intro x. apply detR_ext. intros i k Hi Hk. unfold row_put, hmat. destruct (Nat.eqb i j); reflexivity.
Qed.
Lemma ff_polyd f : is_face T f -> fcod T f = 1%nat -> polyd (tdim (ftype T f)) (facet_degree n p m) (facet_size n p m A B) (ff f).
Proof.
  intros F1 F2. assert (D : (S (tdim (ftype T f)) = n)%nat) by (rewrite (tdim_ftype T f F1), F2; lia).
  unfold facet_size. apply (polyd_weaken _ (facet_degree n p m * 1) _ (INR n * (INR (fact n) * (A * B ^ p * B ^ (n - 1))) * INR n ^ facet_degree n p m)); [|lia|lra].
  apply (polyd_comp_f (tdim (ftype T f)) n (ffx f) (facet_degree n p m) _ (Emb T f) 1 (INR n)).
  - apply (le_INR 1). exact Hn.
  - intros i Hi. pose proof (polyd_Emb T f i) as Q. now rewrite D in Q.
  - apply ffx_polyd.
Qed.
Lemma fe_smooth x : smooth 0 T x -> fe x = s * (rsum n (fun k => peval n (pder k (Phi k)) (mapc T c x)) * detR n (jacc T c x)).
Proof.
  intro S. unfold fe. f_equal. f_equal.
  - apply rsum_ext. intros k Hk. apply peval_ext. intros l Hl. symmetry. apply (HV l x Hl S).
  - apply detR_ext. intros i k Hi Hk. symmetry. now apply (HV k x Hk S).
Qed.
Lemma ff_smooth f y : smooth 0 T (Emb T f y) -> ff f y = s * rsum n (fun j => nrm T f j * pull n T c Phi j (Emb T f y)).
Proof.
  intro S. unfold ff, ffx, pull. f_equal. apply rsum_ext. intros j Hj. f_equal. apply detR_ext. intros i k Hi Hk. unfold row_put. destruct (Nat.eqb i j).
  - apply peval_ext. intros l Hl. symmetry. apply (HV l _ Hl S).
  - symmetry. now apply (HV k _ Hk S).
Qed.
Hypothesis HD : forall x, insideT T x 1 -> smooth 0 T x -> detR n (jacc T c x) <> 0.
Lemma fe_ff : Iint T fe = lsum (fun f => Iint (ftype T f) (ff f)) (faces T 1).
Proof.
  rewrite (Iint_ext_in T fe (fun x => s * rsum n (fun j => pullD n T c Phi j j x))).
  - rewrite gauss_pull by exact HT. apply lsum_ext. intros f Hf. apply in_faces in Hf. destruct Hf as [F1 F2].
    apply (Iint_ext_face T f); auto. intros y Hy S. symmetry. now apply ff_smooth.
  - intros x Hx S. rewrite (fe_smooth x S). destruct (det_inverse (HD x Hx S)) as (X & HX).
    rewrite (pull_div n T c Phi x X); [reflexivity|]. now apply minv_comm.
Qed.
End Core.
