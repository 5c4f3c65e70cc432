(** C59: the nodes and weights of jacobiNodesWeights, from the contract of the eigenvalue solver. *)
From Coq Require Import NArith ZArith PeanoNat List Reals Lia Lra Permutation.
From Coquelicot Require Import Coquelicot.
From Verif Require Import M_Type M_RefGeo M_Matrix M_QuadFactory M_Quadrature M_GolubWelsch S_Matrix S_Topo S_RefGeo
  S_Quad S_Quad1D S_QuadND S_GolubWelsch P_RSum P_Det P_MxBridge P_QuadFix P_QuadAll P_GW1 P_GW2 P_GW3 P_GW4 P_GW5 T_Quad.
Import ListNotations.
Local Open Scope R_scope.

Lemma gw_n_pos degree : (0 <= degree)%Z -> (1 <= gw_n degree)%nat.
Proof. intros H. unfold gw_n. pose proof (Z.quot_pos degree 2 H ltac:(lia)). lia. Qed.
Lemma gw_n_bound degree : (0 <= degree)%Z -> (degree < 2 * Z.of_nat (gw_n degree))%Z.
Proof.
  intros H. unfold gw_n. rewrite Z.quot_div_nonneg by lia. pose proof (Z.div_pos degree 2 H ltac:(lia)).
  pose proof (Z.div_mod degree 2 ltac:(lia)). pose proof (Z.mod_pos_bound degree 2 ltac:(lia)). lia.
Qed.

(** what a run of the function is *)
Lemma nodes_run eig degree alpha data : jacobiNodesWeights eig degree alpha = Some data ->
  (0 <= degree)%Z /\ exists e, eig (gw_n degree) (gw_matrix (gw_n degree) alpha) = Some e /\ data = gw_data alpha (gw_n degree) e.
Proof.
  unfold jacobiNodesWeights. destruct (Z.ltb_spec degree 0) as [|H]; [discriminate|].
  destruct (eig _ _) as [e|] eqn:E; [|discriminate]. intros X. injection X as <-. split; [exact H|]. exists e. split; [reflexivity|reflexivity].
Qed.

(** The matrix is the symmetric tridiagonal matrix of the three term recurrence of the Jacobi
    polynomials P^(alpha,0); its off-diagonal entries are positive. *)
Theorem C59_matrix : forall alpha n, (1 <= n)%nat ->
  let a := INR alpha in
  symmetric n (gw_matrix n alpha)
  /\ gw_matrix n alpha 0%nat 0%nat = - a / (2 + a)
  /\ (forall k, (1 <= k < n)%nat ->
        gw_matrix n alpha k k = - a ^ 2 / ((2 * INR k + a) * (2 * INR k + a + 2))
        /\ 0 < gw_matrix n alpha k (k - 1)%nat
        /\ gw_matrix n alpha k (k - 1)%nat ^ 2
           = 4 * INR k ^ 2 * (INR k + a) ^ 2 / ((2 * INR k + a - 1) * (2 * INR k + a) ^ 2 * (2 * INR k + a + 1)))
  /\ (forall i j, (i < n)%nat -> (S j < i)%nat -> gw_matrix n alpha i j = 0).
Proof.
  intros alpha n Hn a. pose proof (gw_tridiag alpha n Hn) as T. split; [exact (tridiag_sym _ _ _ _ T)|].
  split; [rewrite (T 0 0)%nat by lia; reflexivity|]. split.
  - intros k Hk. assert (E : gw_matrix n alpha k (k - 1)%nat = bJ alpha k).
    { rewrite T by lia. destruct (Nat.eqb_spec k (k - 1)); [lia|]. destruct (Nat.eqb_spec (S k) (k - 1)); [lia|].
      destruct (Nat.eqb_spec k (S (k - 1))); [reflexivity|lia]. }
    rewrite E. assert (Ha : 0 <= a) by apply pos_INR. assert (K : 1 <= INR k) by (apply (le_INR 1); lia). split; [|split].
    + rewrite T, Nat.eqb_refl by lia. destruct k as [|k]; [lia|]. cbn [dJ]. fold a. unfold dJ. field. lra.
    + apply bJ_pos; lia.
    + destruct k as [|k]; [lia|]. rewrite bJ_sq. fold a. field. lra.
  - intros i j Hi Hj. rewrite T by lia. destruct (Nat.eqb_spec i j); [lia|]. destruct (Nat.eqb_spec (S i) j); [lia|].
    destruct (Nat.eqb_spec i (S j)); [lia|reflexivity].
Qed.
Print Assumptions C59_matrix.

(** Exactness: for every solver that meets its contract, every degree and every alpha, the rule
    integrates every polynomial with at most 2n coefficients, hence every one of the requested
    degree, against (1-t)^alpha without error. *)
Theorem C59_exact : forall eig degree alpha data c, solver_ok eig ->
  jacobiNodesWeights eig degree alpha = Some data -> (length c <= 2 * length data)%nat ->
  wsum data (poly c) = RInt (fun t => (1 - t) ^ alpha * poly c t) 0 1.
Proof.
  intros eig degree alpha data c Ok H Hc. destruct (nodes_run _ _ _ _ H) as (D & e & E & ->).
  pose proof (gw_poly alpha (gw_n degree) e (gw_n_pos _ D) (Ok _ _ _ E) c 0) as G.
  unfold gw_data in Hc. rewrite map_length, seq_length in Hc. specialize (G ltac:(lia)).
  rewrite (lf_ext _ _ (fun t => t ^ 0 * poly c t)) by (intros; ring). rewrite G. apply RInt_ext. intros t _.
  match goal with |- @eq _ ?u ?v => change (@eq R u v) end. ring.
Qed.
Print Assumptions C59_exact.

Theorem C59_degree : forall eig degree alpha data, jacobiNodesWeights eig degree alpha = Some data ->
  Z.of_nat (length data) = (degree / 2 + 1)%Z /\ (degree < 2 * Z.of_nat (length data))%Z.
Proof.
  intros eig degree alpha data H. destruct (nodes_run _ _ _ _ H) as (D & e & E & ->).
  unfold gw_data. rewrite map_length, seq_length. split; [|now apply gw_n_bound].
  unfold gw_n. rewrite Z.quot_div_nonneg by lia. pose proof (Z.div_pos degree 2 D ltac:(lia)). lia.
Qed.
Print Assumptions C59_degree.

(** The nodes are different points of the open interval and the weights are positive. *)
Theorem C59_points : forall eig degree alpha data, solver_ok eig -> jacobiNodesWeights eig degree alpha = Some data ->
  (forall x w, In (x, w) data -> 0 < x < 1 /\ 0 < w) /\ NoDup (map fst data).
Proof.
  intros eig degree alpha data Ok H. destruct (nodes_run _ _ _ _ H) as (D & e & E & ->).
  pose proof (gw_n_pos _ D) as P. specialize (Ok _ _ _ E). split.
  - intros x w I. unfold gw_data in I. apply in_map_iff in I. destruct I as (i & X & I). apply in_seq in I. injection X as <- <-.
    split; [apply (gw_node_range alpha (gw_n degree) e P Ok); lia|apply (gw_weight_pos alpha (gw_n degree) e P Ok); lia].
  - exact (gw_nodup alpha (gw_n degree) e P Ok).
Qed.
Print Assumptions C59_points.

Theorem C59_weights_sum : forall eig degree alpha data, solver_ok eig -> jacobiNodesWeights eig degree alpha = Some data ->
  wsum data (fun _ => 1) = 1 / INR (alpha + 1).
Proof.
  intros eig degree alpha data Ok H. destruct (C59_degree _ _ _ _ H) as [L _].
  destruct (nodes_run _ _ _ _ H) as (D & _). pose proof (Z.div_pos degree 2 D ltac:(lia)).
  rewrite (lf_ext _ _ (poly [1])) by (intros; cbn [poly]; ring).
  rewrite (C59_exact eig degree alpha data [1] Ok H) by (cbn [length]; lia).
  rewrite <- LJ_mass, <- (LJ_subst alpha (fun _ => 1)) by auto with cts. apply RInt_ext. intros t _.
  match goal with |- @eq _ ?u ?v => change (@eq R u v) end. cbn [poly]. ring.
Qed.
Print Assumptions C59_weights_sum.

(** The rule does not depend on the solver: two solvers that meet the contract give the same
    nodes and weights up to their order. *)
Theorem C59_unique : forall eig1 eig2 degree alpha data1 data2, solver_ok eig1 -> solver_ok eig2 ->
  jacobiNodesWeights eig1 degree alpha = Some data1 -> jacobiNodesWeights eig2 degree alpha = Some data2 ->
  Permutation data1 data2.
Proof.
  intros eig1 eig2 degree alpha d1 d2 Ok1 Ok2 H1 H2.
  destruct (nodes_run _ _ _ _ H1) as (D & e1 & E1 & ->). destruct (nodes_run _ _ _ _ H2) as (_ & e2 & E2 & ->).
  pose proof (gw_n_pos _ D) as P. specialize (Ok1 _ _ _ E1). specialize (Ok2 _ _ _ E2).
  apply NoDup_Permutation.
  - apply (NoDup_map_inv fst). now apply gw_nodup.
  - apply (NoDup_map_inv fst). now apply gw_nodup.
  - intros [x w]. rewrite (gw_in alpha (gw_n degree) e1 P Ok1), (gw_in alpha (gw_n degree) e2 P Ok2). reflexivity.
Qed.
Print Assumptions C59_unique.

(** The contract can be met for every matrix of the algorithm: all its eigenvalues are real. *)
Theorem C59_satisfiable : forall alpha n, (1 <= n)%nat -> exists e, eigenvectors_of n (gw_matrix n alpha) e.
Proof.
  intros alpha n Hn. apply (contract_met n (dJ alpha) (bJ alpha)); [exact Hn|now apply gw_tridiag|].
  intros k Hk. apply Rgt_not_eq, bJ_pos. lia.
Qed.
Print Assumptions C59_satisfiable.

(** The assumption of C40 and C43 on the rules from LAPACK follows from the solver's contract,
    with error zero. *)
Theorem C59_lapackOk : forall eig e, solver_ok eig -> 0 <= e -> lapackOk e (jacobiNodesWeights eig).
Proof.
  intros eig e Ok He p alpha data H. destruct (C59_degree _ _ _ _ H) as [L B]. split; [lia|]. split.
  - intros x w I. destruct (proj1 (C59_points _ _ _ _ Ok H) x w I). lra.
  - intros a b Hab. destruct (nodes_run _ _ _ _ H) as (D & v & E & ->).
    pose proof (gw_moment alpha (gw_n p) v (gw_n_pos _ D) (Ok _ _ _ E) a b) as G. unfold wsum in G.
    unfold gw_data in Hab. rewrite map_length, seq_length in Hab. rewrite G by lia. rewrite Rminus_diag_eq by reflexivity.
    rewrite Rabs_R0. exact He.
Qed.
Print Assumptions C59_lapackOk.

(** All rules of the library with LAPACK: exactness up to the digits of the tables, points in the
    reference element, weights. *)
Theorem C59_all_rules : forall eig r x,
  solver_ok eig -> valid r -> quadRule (jacobiNodesWeights eig) r = Some x ->
  let T := topo_of (gt_id (rq_t r)) (rq_dim r) in
  let alpha := weightExp (rq_qt r) in
  exactND alpha T (Z.to_nat (ru_order x)) (errD (Cw alpha) (tableErr (rq_p r) (rq_qt r)) (rq_dim r)) (ru_points x)
  /\ (forall q, In q (ru_points x) -> in_hull (rq_dim r) (referenceCorners (gt_id (rq_t r)) (rq_dim r)) (fst q))
  /\ ((rq_p r <> 3%Z \/ (rq_qt r <> 0 /\ rq_qt r <> 3)%nat \/ (rq_dim r < 2)%nat) ->
        forall q, In q (ru_points x) -> 0 <= snd q)
  /\ (rq_dim r <> 0%nat -> (rq_p r <= ru_order x)%Z).
Proof.
  intros eig r x Ok V H T alpha. assert (N : 0 <= tableErr (rq_p r) (rq_qt r)) by (eapply Rle_trans; [|apply tableErr_eps1]; unfold eps1; lra).
  pose proof (C59_lapackOk eig _ Ok N) as L.
  destruct (C43_all_rules _ _ r x L (Rle_refl _) V H) as (A & B & C). repeat split; try assumption.
  exact (C40_delivered_order _ _ r x L V H).
Qed.
Print Assumptions C59_all_rules.

(** Example: two nodes for the weight function 1.  The eigenvalues are -1/sqrt 3 and 1/sqrt 3. *)
Definition gauss2_eig : Eigen := {|
  eg_re := fun i => match i with O => - / sqrt 3 | _ => / sqrt 3 end;
  eg_im := fun _ => 0;
  eg_vec := fun i k => match i, k with O, S _ => - / sqrt 2 | _, _ => / sqrt 2 end |}.
Lemma gauss2_matrix : gw_matrix 2 0 0%nat 0%nat = 0 /\ gw_matrix 2 0 0%nat 1%nat = / sqrt 3
  /\ gw_matrix 2 0 1%nat 0%nat = / sqrt 3 /\ gw_matrix 2 0 1%nat 1%nat = 0.
Proof.
  assert (E : sqrt (gw_a 0 1 * gw_c 0 1) = / sqrt 3).
  { replace (gw_a 0 1 * gw_c 0 1) with (/ 3) by (unfold gw_a, gw_c; simpl; field). apply sqrt_inv. }
  pose proof (gw_tridiag 0 2 ltac:(lia)) as T. rewrite !T by lia. cbn [Nat.eqb dJ]. unfold bJ. rewrite E. cbn [INR].
  repeat split; try reflexivity; field.
Qed.
Example C59_example : eigenvectors_of 2 (gw_matrix 2 0) gauss2_eig
  /\ jacobiNodesWeights (fun n _ => if Nat.eqb n 2 then Some gauss2_eig else None) 3 0
     = Some [(1 / 2 * - / sqrt 3 + 1 / 2, 1 / INR 1 * / sqrt 2 * / sqrt 2); (1 / 2 * / sqrt 3 + 1 / 2, 1 / INR 1 * / sqrt 2 * / sqrt 2)].
Proof.
  split; [|reflexivity]. destruct gauss2_matrix as (M00 & M01 & M10 & M11).
  pose proof (sqrt_lt_R0 2 ltac:(lra)). pose proof (sqrt_lt_R0 3 ltac:(lra)).
  pose proof (sqrt_sqrt 2 ltac:(lra)) as S2. pose proof (sqrt_sqrt 3 ltac:(lra)) as S3.
  assert (V : forall i, (i < 2)%nat -> forall k, (k < 2)%nat -> mvec 2 (gw_matrix 2 0) (eg_vec gauss2_eig i) k = eg_re gauss2_eig i * eg_vec gauss2_eig i k).
  { intros i Hi k Hk. unfold mvec. cbn [rsum]. destruct i as [|[|i]]; [| |lia]; destruct k as [|[|k]]; try lia; rewrite ?M00, ?M01, ?M10, ?M11; cbn; field; lra. }
  split.
  - intros i Hi. exists (eg_vec gauss2_eig i), (fun _ => 0). split; [|split].
    + exists 0%nat. split; [lia|]. left. assert (/ sqrt 2 <> 0) by (apply Rinv_neq_0_compat; lra). destruct i as [|[|i]]; [assumption|assumption|lia].
    + intros k Hk. rewrite V by assumption. ring.
    + intros k Hk. cbn. unfold mvec. cbn [rsum]. ring.
  - intros i Hi _. split; [now apply V|]. destruct i as [|[|i]]; [| |lia]; cbn; field_simplify_eq; nra.
  - intros _ x. rewrite (detR_2 _). cbv beta. rewrite M00, M01, M10, M11. unfold mone. cbn [Nat.eqb rprod gauss2_eig eg_re]. field_simplify_eq; nra.
Qed.
