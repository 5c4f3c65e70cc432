(** C44: the composite quadrature rule; additivity of the integral over the refined simplex. *)
From Coq Require Import NArith ZArith PeanoNat Bool List Permutation Reals Factorial Lia Lra.
From Verif Require Import M_Type M_RefTopo M_RefGeo M_Quadrature S_Topo S_RefGeo S_MultiLinear S_Quad1D S_QuadND P_Topo P_RSum P_RefGeo P_RefGeo2 P_QuadProd P_QuadAll
  M_MultiLinear M_Refine S_Refine S_Refine2 P_Refine1 P_Refine2 P_Refine3 P_Refine4 P_Refine5 P_Refine9 T_Refine P_KuhnInt P_KuhnInt2 P_KuhnInt3 P_KuhnInt4 M_Composite S_Composite P_Composite.
Import ListNotations.
Local Open Scope R_scope.

Section C44.
Variables (dim : nat) (tol : R) (jv : Vec) (jm jk j1 j2 : Mat) (r : RefElement) (fuel rounds n : nat) (b : Rule).
Hypothesis Hd : (0 < dim <= 34)%nat.
Hypothesis Ht : 0 < tol < 1 / 2.
Hypothesis Hr : re_infos simplexId dim = Some r.
Hypothesis Hn : (0 < n)%nat.
Hypothesis Hf : (fact dim <= fuel)%nat.
Hypothesis Hm : (n ^ dim <= rounds)%nat.
Hypothesis Hb : simplexRule dim tol b.
Notation comp := (composite dim tol jv jm jk j1 j2 r fuel rounds b n).

Lemma comp_spec : exists ls, comp = Some (mkRule (ru_type b) (ru_order b) (concat ls))
  /\ Forall2 (fun i l => copyOf dim n (mapAt dim n i) (ru_points b) l) (seq 0 (n ^ dim)) ls.
Proof.
  destruct Hb as (S & _ & Q). destruct (refvol_ok (ru_type b) dim S ltac:(lia)) as [V1 V2].
  destruct (loop_spec dim tol jv jm jk j1 j2 r ltac:(lia) Ht Hr fuel n (referenceVolume (gt_id (ru_type b)) dim) (ru_points b) Hn Hf V1 ltac:(rewrite V1; assumption) Q
    (n ^ dim) rounds 0%nat ltac:(lia) ltac:(lia)) as (ls & E & C).
  exists ls. split; [|assumption]. unfold composite. rewrite S. rewrite <- elemAt_begin by lia. rewrite E. reflexivity.
Qed.

(** the constructor finishes; type and order are those of the base rule, and there are
    n^dim times as many points *)
Theorem C44_points : exists c, comp = Some c /\ ru_type c = ru_type b /\ ru_order c = ru_order b
  /\ length (ru_points c) = (n ^ dim * length (ru_points b))%nat.
Proof.
  destruct comp_spec as (ls & E & C). eexists. split; [exact E|]. split; [reflexivity|]. split; [reflexivity|].
  cbn [ru_points]. rewrite (copies_length _ _ _ _ _ _ C), seq_length. reflexivity.
Qed.
(** if the points of the base rule are in the simplex, so are those of the composite rule *)
Theorem C44_inside : forall c, comp = Some c ->
  (forall q, In q (ru_points b) -> in_hull dim (referenceCorners simplexId dim) (fst q)) ->
  forall q, In q (ru_points c) -> in_hull dim (referenceCorners simplexId dim) (fst q).
Proof.
  intros c Ec I q Q. destruct comp_spec as (ls & E & C). rewrite E in Ec. injection Ec as <-. cbn [ru_points] in Q.
  destruct (copies_in _ _ _ _ _ _ _ C Q) as (k & q0 & K1 & K2 & A & _). apply in_seq in K1. specialize (I q0 K2). apply simplex_hull in I. apply simplex_hull.
  pose proof (map_inside dim n k (fst q0) ltac:(lia) Hn ltac:(lia) I) as [S1 S2]. split.
  - intros i Hi. rewrite A by assumption. apply S1. assumption.
  - rewrite Ssum_rsum in *. rewrite (rsum_ext dim _ (mapAt dim n k (fst q0))) by (intros; apply A; assumption). assumption.
Qed.
Theorem C44_weights_sum : forall c, comp = Some c -> weightSum (ru_points c) = weightSum (ru_points b).
Proof.
  intros c Ec. destruct comp_spec as (ls & E & C). rewrite E in Ec. injection Ec as <-. cbn [ru_points].
  rewrite !weightSum_quad, (copies_quad _ _ _ _ _ _ (fun _ : Vec => 1) C) by reflexivity. rewrite lsumR_seq, rsum_const, pow_INR.
  field. apply pow_nonzero, not_0_INR. lia.
Qed.
Theorem C44_weights_nonneg : forall c, comp = Some c -> (forall q, In q (ru_points b) -> 0 <= snd q) -> forall q, In q (ru_points c) -> 0 <= snd q.
Proof.
  intros c Ec I q Q. destruct comp_spec as (ls & E & C). rewrite E in Ec. injection Ec as <-. cbn [ru_points] in Q.
  destruct (copies_in _ _ _ _ _ _ _ C Q) as (k & q0 & K1 & K2 & _ & ->). specialize (I q0 K2).
  apply Rmult_le_pos; [|assumption]. apply Rlt_le, Rinv_0_lt_compat, pow_lt, lt_0_INR. lia.
Qed.
(** A base rule that integrates polynomials of degree p up to err times the sum of their
    coefficients gives a composite rule with error at most (dim+1)^p times that. *)
Theorem C44_exact : forall c p err, comp = Some c -> 0 <= err ->
  exactND 0 (topo_of (gt_id (ru_type b)) dim) p err (ru_points b) ->
  exactND 0 (topo_of (gt_id (ru_type b)) dim) p (err * INR (dim + 1) ^ p) (ru_points c).
Proof.
  intros c p err Ec He H. destruct comp_spec as (ls & E & C). rewrite E in Ec. injection Ec as <-. cbn [ru_points].
  destruct Hb as (S & _ & _). pose proof (simplex_id _ S) as L. apply exact_momExact in H. apply momExact_exact.
  apply (momExact_low 0 (gt_id (ru_type b)) dim 0 p _ _ L). apply (momExact_low (gt_id (ru_type b)) 0 dim 0 p err (ru_points b) (eq_sym L)) in H.
  rewrite topo_simplex in *. apply exact_momExact. apply momExact_exact in H.
  exact (comp_exact dim n p err (ru_points b) ls ltac:(lia) Hn He C H).
Qed.
(** in particular it is exact for the polynomials of degree p if the base rule is *)
Theorem C44_exact_polynomials : forall c p, comp = Some c ->
  (forall P, pdegree_le dim P p -> quad (ru_points b) (peval dim P) = Iint (topo_of (gt_id (ru_type b)) dim) (peval dim P)) ->
  forall P, pdegree_le dim P p -> quad (ru_points c) (peval dim P) = Iint (topo_of (gt_id (ru_type b)) dim) (peval dim P).
Proof.
  intros c p Ec H P D. assert (X : exactND 0 (topo_of (gt_id (ru_type b)) dim) p 0 (ru_points b)).
  { intros P' D'. rewrite tdim_topo_of in *. rewrite IintW_Iint, H by assumption. rewrite Rminus_diag_eq, Rabs_R0 by reflexivity. lra. }
  apply (C44_exact c p 0 Ec ltac:(lra)) in X. specialize (X P). rewrite tdim_topo_of, IintW_Iint in X. specialize (X D).
  rewrite !Rmult_0_l in X. pose proof (Rabs_pos (quad (ru_points c) (peval dim P) - Iint (topo_of (gt_id (ru_type b)) dim) (peval dim P))) as Y.
  destruct (Req_dec (quad (ru_points c) (peval dim P) - Iint (topo_of (gt_id (ru_type b)) dim) (peval dim P)) 0) as [Z|Z]; [lra|].
  apply Rabs_pos_lt in Z. lra.
Qed.
End C44.
Print Assumptions C44_points.
Print Assumptions C44_inside.
Print Assumptions C44_weights_sum.
Print Assumptions C44_weights_nonneg.
Print Assumptions C44_exact.
Print Assumptions C44_exact_polynomials.

(** a rule whose type is not a simplex is rejected by the assertion *)
Theorem C44_precondition : forall dim tol jv jm jk j1 j2 r fuel rounds b n,
  composite dim tol jv jm jk j1 j2 r fuel rounds b n <> None -> isSimplex (ru_type b) = true.
Proof. intros. unfold composite in H. destruct (isSimplex (ru_type b)); [reflexivity|contradiction]. Qed.
Print Assumptions C44_precondition.

Theorem C44_levels : forall l, refinementLevels l = (2 ^ l)%nat.
Proof. intros. unfold refinementLevels. rewrite Nat.shiftl_1_l. reflexivity. Qed.
Print Assumptions C44_levels.

(** C52: the integral over the simplex is the sum of the integrals over the elements; the
    volume of an element is n^(-dim) times that of the simplex (C52_volume) *)
Theorem C52_integral : forall fuel dim n st r tol jv P, (0 < dim)%nat -> (0 < n)%nat -> (fact dim <= fuel)%nat ->
  0 < tol < 1 / 2 -> re_infos simplexId dim = Some r -> simplexElements fuel dim n st ->
  exists G : nat -> Vec -> Vec,
    (forall k, (k < n ^ dim)%nat -> exists g, se_geometry dim r (st k) = Some g
       /\ forall x, evaluable dim tol x -> exists y, mlg_global dim dim tol jv g x = Some y /\ agree dim y (G k x))
    /\ Iint (topo_of simplexId dim) (peval dim P)
       = Ssum (n ^ dim) (fun k => / INR n ^ dim * Iint (topo_of simplexId dim) (fun x => peval dim P (G k x))).
Proof.
  intros fuel dim n st r tol jv P Hd Hn F Ht Hr V. exists (mapAt dim n). split.
  - intros k Hk. destruct (stGeo fuel dim n r st Hd Hn F V k Hk) as (p & Hp & G & E). eexists. split; [exact E|].
    intros x Hx. destruct (elem_global dim tol jv r Hd Ht Hr _ _ x (affdet_Gmap dim p (se_origin (elemAt dim n k)) n Hp) Hx) as (y & Y1 & Y2).
    exists y. split; [exact Y1|]. unfold mapAt, permAt. rewrite G. exact Y2.
  - pose proof (refine_integral dim n (peval dim P) Hd Hn (ex_intro _ P (fun x => eq_refl))) as Q.
    change (topo_of simplexId dim) with (topo_of 0%N dim). rewrite topo_simplex. etransitivity; [|symmetry; apply Ssum_rsum].
    rewrite (rsum_scal (n ^ dim) (/ INR n ^ dim)). rewrite (rsum_ext (n ^ dim) _ (fun k => SI dim (fun x => peval dim P (mapAt dim n k x)))).
    + unfold mapAt. rewrite Q. unfold SI. rewrite IintW_Iint. field. apply pow_nonzero, not_0_INR. lia.
    + intros k Hk. unfold SI. rewrite IintW_Iint. reflexivity.
Qed.
Print Assumptions C52_integral.

(** the centroid rule of the triangle on 3 intervals: nine points, weights still summing to
    1/2, exact for the linear functions *)
Definition centroidRule : Rule := mkRule (simplex 2) 1 [((fun _ => 1 / 3) : Vec, 1 / 2)].
Example C44_example : forall tol jv jm jk j1 j2 r, 0 < tol < 1 / 2 -> re_infos simplexId 2 = Some r ->
  exists c, composite 2 tol jv jm jk j1 j2 r 2 9 centroidRule 3 = Some c /\ length (ru_points c) = 9%nat /\ weightSum (ru_points c) = 1 / 2
    /\ forall q, In q (ru_points c) -> in_hull 2 (referenceCorners simplexId 2) (fst q).
Proof.
  intros tol jv jm jk j1 j2 r Ht Hr.
  assert (B : simplexRule 2 tol centroidRule).
  { split; [reflexivity|]. split; [reflexivity|]. intros q [<-|[]]. left. cbn. right. split; [rewrite Rabs_pos_eq; lra|]. left. reflexivity. }
  destruct (C44_points 2 tol jv jm jk j1 j2 r 2 9 3 centroidRule ltac:(lia) Ht Hr ltac:(lia) ltac:(cbn; lia) ltac:(cbn; lia) B) as (c & E & _ & _ & L).
  exists c. split; [exact E|]. split; [rewrite L; reflexivity|]. split.
  - rewrite (C44_weights_sum 2 tol jv jm jk j1 j2 r 2 9 3 centroidRule ltac:(lia) Ht Hr ltac:(lia) ltac:(cbn; lia) ltac:(cbn; lia) B c E). cbn. lra.
  - apply (C44_inside 2 tol jv jm jk j1 j2 r 2 9 3 centroidRule ltac:(lia) Ht Hr ltac:(lia) ltac:(cbn; lia) ltac:(cbn; lia) B c E).
    intros q [<-|[]]. apply simplex_hull. cbn. split; [intros; lra|]. cbn. lra.
Qed.
Example C44_example_levels : refinementLevels 3 = 8%nat. Proof. reflexivity. Qed.
