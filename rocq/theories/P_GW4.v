(** The rule computed by jacobiNquadrature.hh from a correct eigenvalue solver. *)
From Coq Require Import ZArith PeanoNat Lia Reals Lra List FunctionalExtensionality Permutation.
From Coquelicot Require Import Coquelicot.
From Verif Require Import M_RefGeo M_Matrix M_GolubWelsch S_Matrix S_Quad1D P_RSum P_Det P_MxBridge S_GolubWelsch P_GW1 P_GW2 P_GW3.
Import ListNotations.
Local Open Scope R_scope.

Lemma LJ_subst al g : Cts g -> RInt (fun t => (1 - t) ^ al * g t) 0 1 = LJ al (fun x => g (1 / 2 * x + 1 / 2)).
Proof.
  intros G. unfold LJ. set (f := fun t => (1 - t) ^ al * g t).
  assert (F : Cts f) by (apply cts_mult; [apply (cts_pow (fun t => 1 - t)); auto with cts|exact G]).
  assert (X : forall u w, ex_RInt f u w) by (intros; apply (ex_RInt_continuous f); intros; apply F).
  pose proof (RInt_comp_lin f (-1) 1 0 1 (X _ _)) as H.
  replace (-1 * 0 + 1) with 1 in H by ring. replace (-1 * 1 + 1) with 0 in H by ring.
  rewrite <- (opp_RInt_swap f) in H by apply X.
  rewrite <- (Ropp_involutive (RInt f 0 1)). change (- RInt f 0 1) with (opp (RInt f 0 1)). rewrite <- H.
  change (- RInt (fun y : R => scal (-1) (f (-1 * y + 1))) 0 1) with (opp (RInt (fun y : R => scal (-1) (f (-1 * y + 1))) 0 1)).
  rewrite <- RInt_opp.
  - apply RInt_ext. intros y _. match goal with |- @eq _ ?u ?w => change (@eq R u w) end. unfold opp, scal; simpl. unfold mult; simpl. unfold f.
    replace (1 - (-1 * y + 1)) with y by ring. replace (1 / 2 * (1 - 2 * y) + 1 / 2) with (-1 * y + 1) by field. ring.
  - apply (ex_RInt_continuous (fun y : R => scal (-1) (f (-1 * y + 1)))). intros z _. unfold scal; simpl. unfold mult; simpl.
    apply (cts_mult (fun _ => -1) (fun y => f (-1 * y + 1))); [auto with cts|].
    intros x. apply (continuous_comp (fun y => -1 * y + 1) f); [|apply F]. apply (cts_plus (fun y => -1 * y) (fun _ => 1)); auto with cts.
Qed.

Lemma cts_poly c : Cts (poly c).
Proof. induction c as [|u c IH]; cbn [poly]; [apply cts_const|]. apply cts_plus; [apply cts_const|]. apply cts_mult; [apply cts_id|exact IH]. Qed.

Lemma LJ_mass al : LJ al (fun _ => 1) = 1 / INR (al + 1).
Proof.
  unfold LJ. rewrite (RInt_ext _ (fun y => y ^ al)).
  - rewrite RInt_pow, plus_INR. simpl (INR 1). field. pose proof (pos_INR al). lra.
  - intros y _. match goal with |- @eq _ ?u ?w => change (@eq R u w) end. ring.
Qed.

Section Rule.
Variables (al n : nat) (e : Eigen).
Hypothesis Hn : (1 <= n)%nat.
Hypothesis V : eigenvectors_of n (gw_matrix n al) e.
Definition gw_node (i : nat) : R := 1 / 2 * eg_re e i + 1 / 2.
Definition gw_weight (i : nat) : R := 1 / INR (al + 1) * eg_vec e i 0%nat * eg_vec e i 0%nat.
Definition gw_data : list (R * R) := map (fun i => (gw_node i, gw_weight i)) (seq 0 n).

Let T := gw_tridiag al n Hn.
Lemma bJ_nz k : (1 <= k < n)%nat -> bJ al k <> 0.
Proof. intros [H _]. apply Rgt_not_eq. now apply bJ_pos. Qed.

Lemma gw_wsum f : wsum gw_data f = Lam n e (LJ al) (fun x => f (1 / 2 * x + 1 / 2)).
Proof.
  unfold wsum, Lam, gw_data. rewrite LJ_mass. rewrite <- (lsum_seq _ n). unfold lsum.
  induction (seq 0 n) as [|i l IH]; [reflexivity|]. cbn [map fold_right fst snd]. rewrite IH. reflexivity.
Qed.

Lemma gw_moment s t : (s + t < 2 * n)%nat ->
  wsum gw_data (fun t0 => (1 - t0) ^ s * t0 ^ t) = RInt (fun t0 => (1 - t0) ^ al * ((1 - t0) ^ s * t0 ^ t)) 0 1.
Proof.
  intros H. rewrite gw_wsum, LJ_subst by (apply cts_mult; [apply (cts_pow (fun t => 1 - t))|apply (cts_pow (fun t => t))]; auto with cts).
  pose proof (gauss_exact n (dJ al) (bJ al) (gw_matrix n al) e (LJ al) T bJ_nz V (LJ_lin al)
    (fun j k A _ => LJ_orth al j k A) (1 / 2) (- (1 / 2)) (1 / 2) (1 / 2) s t H) as G.
  rewrite (lf_ext (Lam n e (LJ al)) _ (fun x => (1 / 2 + - (1 / 2) * x) ^ s * (1 / 2 + 1 / 2 * x) ^ t)), G.
  - apply lf_ext. intros x. f_equal; f_equal; field.
  - intros x. f_equal; f_equal; field.
Qed.

Lemma wsum_lin data : LinF (wsum data).
Proof. split; intros; unfold wsum; induction data as [|q l IH]; cbn [fold_right]; try ring; rewrite IH; ring. Qed.
Lemma wint_lin : LinF (fun f => RInt (fun t => (1 - t) ^ al * f t) 0 1).
Proof.
  split; intros.
  - rewrite !LJ_subst by auto with cts. apply (lf_plus _ (LJ_lin al) (fun x => f (1 / 2 * x + 1 / 2)) (fun x => g (1 / 2 * x + 1 / 2)));
      intros z; (apply (continuous_comp (fun y => 1 / 2 * y + 1 / 2)); [apply (cts_plus (fun y => 1 / 2 * y) (fun _ => 1 / 2)); auto with cts|auto]).
  - rewrite !LJ_subst by auto with cts. apply (lf_scal _ (LJ_lin al) c (fun x => f (1 / 2 * x + 1 / 2))).
    intros z; (apply (continuous_comp (fun y => 1 / 2 * y + 1 / 2)); [apply (cts_plus (fun y => 1 / 2 * y) (fun _ => 1 / 2)); auto with cts|auto]).
Qed.

Lemma gw_poly c : forall m, (length c + m <= 2 * n)%nat ->
  wsum gw_data (fun t => t ^ m * poly c t) = RInt (fun t => (1 - t) ^ al * (t ^ m * poly c t)) 0 1.
Proof.
  induction c as [|u c IH]; intros m H.
  - cbn [poly]. rewrite (lf_ext (wsum gw_data) _ (fun t => 0 * 1)) by (intros; ring). rewrite (lf_scal _ (wsum_lin gw_data)) by auto with cts.
    rewrite (RInt_ext _ (fun t => (1 - t) ^ al * (0 * 1))) by (intros; match goal with |- @eq _ ?u ?w => change (@eq R u w) end; ring).
    pose proof (lf_scal _ wint_lin 0 (fun _ => 1) ltac:(auto with cts)) as E. cbv beta in E. rewrite E. ring.
  - cbn [poly length] in *. pose proof (gw_moment 0 m ltac:(lia)) as A. pose proof (IH (S m) ltac:(lia)) as B.
    pose proof (cts_poly c) as Cc.
    rewrite (lf_ext (wsum gw_data) _ (fun t => t ^ S m * poly c t + u * ((1 - t) ^ 0 * t ^ m))) by (intros; simpl; ring).
    rewrite (lf_comb2 _ (wsum_lin gw_data)) by auto 10 with cts. rewrite A, B.
    pose proof (lf_comb2 _ wint_lin (fun t => t ^ S m * poly c t) (fun t => (1 - t) ^ 0 * t ^ m) u ltac:(auto with cts) ltac:(auto 10 with cts)) as E.
    cbv beta in E. rewrite <- E. apply RInt_ext. intros t _. match goal with |- @eq _ ?u ?w => change (@eq R u w) end. simpl. ring.
Qed.

Lemma gw_weight_pos i : (i < n)%nat -> 0 < gw_weight i.
Proof.
  intros Hi. unfold gw_weight. pose proof (res_nz n (dJ al) (bJ al) (gw_matrix n al) e T bJ_nz V i Hi).
  assert (0 < 1 / INR (al + 1)) by (apply Rdiv_lt_0_compat; [lra|apply lt_0_INR; lia]).
  rewrite Rmult_assoc. apply Rmult_lt_0_compat; [assumption|nra].
Qed.

Lemma LJ_nonneg f : Cts f -> (forall x, -1 <= x <= 1 -> 0 <= f x) -> 0 <= LJ al f.
Proof.
  intros F H. unfold LJ. apply RInt_ge_0; [lra|apply int_cts; now apply cts_LJ|].
  intros x Hx. apply Rmult_le_pos; [apply pow_le; lra|apply H; lra].
Qed.
Lemma gw_node_range i : (i < n)%nat -> 0 < gw_node i < 1.
Proof.
  intros Hi.
  assert (M : 0 < LJ al (fun _ => 1)) by (rewrite LJ_mass; apply Rdiv_lt_0_compat; [lra|apply lt_0_INR; lia]).
  pose proof (node_mean n (dJ al) (bJ al) (gw_matrix n al) e (LJ al) T bJ_nz V (LJ_lin al)
    (fun j k A _ => LJ_orth al j k A) 1 1 i Hi) as A1.
  pose proof (node_mean n (dJ al) (bJ al) (gw_matrix n al) e (LJ al) T bJ_nz V (LJ_lin al)
    (fun j k A _ => LJ_orth al j k A) 1 (-1) i Hi) as A2.
  pose proof (cts_kern n (dJ al) (bJ al) e i) as CK.
  assert (P1 : 0 <= LJ al (fun x => (1 + 1 * x) * (kern n (dJ al) (bJ al) e i x * kern n (dJ al) (bJ al) e i x))).
  { apply LJ_nonneg; [auto 10 with cts|]. intros x Hx. apply Rmult_le_pos; [lra|nra]. }
  assert (P2 : 0 <= LJ al (fun x => (1 + -1 * x) * (kern n (dJ al) (bJ al) e i x * kern n (dJ al) (bJ al) e i x))).
  { apply LJ_nonneg; [auto 10 with cts|]. intros x Hx. apply Rmult_le_pos; [lra|nra]. }
  rewrite <- A1 in P1. rewrite <- A2 in P2.
  pose proof (res_root n (dJ al) (bJ al) (gw_matrix n al) e T bJ_nz V i Hi) as Rt.
  assert (N1 : eg_re e i <> 1) by (intros E; rewrite E in Rt; exact (Q_1_nz al n Rt)).
  assert (N2 : eg_re e i <> -1) by (intros E; rewrite E in Rt; exact (Q_m1_nz al n Rt)).
  unfold gw_node. set (lam := eg_re e i) in *. set (mu := LJ al (fun _ => 1)) in *.
  assert (0 <= 1 + 1 * lam) by (apply Rmult_le_reg_l with mu; lra). assert (0 <= 1 + -1 * lam) by (apply Rmult_le_reg_l with mu; lra).
  lra.
Qed.
Lemma gw_nodes_distinct i j : (i < n)%nat -> (j < n)%nat -> i <> j -> gw_node i <> gw_node j.
Proof.
  intros Hi Hj N E. apply (res_distinct n (dJ al) (bJ al) (gw_matrix n al) e T bJ_nz V i j Hi Hj N). unfold gw_node in E. lra.
Qed.
(** the weight is a function of the node *)
Lemma gw_weight_value i : (i < n)%nat ->
  gw_weight i * rsum n (fun k => (TQ (dJ al) (bJ al) k (2 * gw_node i - 1) / beta (bJ al) k) ^ 2) = 1 / INR (al + 1).
Proof.
  intros Hi. unfold gw_weight. rewrite <- rsum_scal.
  rewrite (rsum_ext n _ (fun k => 1 / INR (al + 1) * (eg_vec e i k * eg_vec e i k))).
  - rewrite rsum_scal. destruct (res_vec n (dJ al) (bJ al) (gw_matrix n al) e T V i Hi) as [_ ->]. ring.
  - intros k Hk. replace (2 * gw_node i - 1) with (eg_re e i) by (unfold gw_node; field).
    pose proof (res_Q n (dJ al) (bJ al) (gw_matrix n al) e T V i k Hi Hk) as E.
    pose proof (beta_nz (bJ al) n bJ_nz k Hk) as B.
    replace (eg_vec e i k) with (TQ (dJ al) (bJ al) k (eg_re e i) * eg_vec e i 0%nat / beta (bJ al) k) by (rewrite E; field; exact B).
    field. split; [exact B|]. apply not_0_INR. lia.
Qed.
Lemma gw_root x : (exists i, (i < n)%nat /\ gw_node i = x) <-> TQ (dJ al) (bJ al) n (2 * x - 1) = 0.
Proof.
  split.
  - intros (i & Hi & <-). replace (2 * gw_node i - 1) with (eg_re e i) by (unfold gw_node; field).
    exact (res_root n (dJ al) (bJ al) (gw_matrix n al) e T bJ_nz V i Hi).
  - rewrite (res_char n (dJ al) (bJ al) (gw_matrix n al) e T V). intros H.
    assert (X : forall m, rprod m (fun i => 2 * x - 1 - eg_re e i) = 0 -> exists i, (i < m)%nat /\ gw_node i = x).
    { induction m as [|m IH]; cbn [rprod]; [lra|]. intros E. apply Rmult_integral in E. destruct E as [E|E].
      - destruct (IH E) as (i & Hi & Ei). exists i. split; [lia|exact Ei].
      - exists m. split; [lia|]. unfold gw_node. lra. }
    exact (X n H).
Qed.
Lemma gw_nodup : NoDup (map fst gw_data).
Proof.
  unfold gw_data. rewrite map_map. cbn [fst].
  assert (G : forall l, NoDup l -> (forall i, In i l -> (i < n)%nat) -> NoDup (map gw_node l)).
  { induction l as [|i l IH]; intros ND H; cbn [map]; [constructor|]. inversion ND; subst. constructor.
    - intros I. apply in_map_iff in I. destruct I as (j & E & I). apply (gw_nodes_distinct i j); [apply H; now left|apply H; now right| |now symmetry].
      intros ->. contradiction.
    - apply IH; [assumption|]. intros j I. apply H. now right. }
  apply (G (seq 0 n)); [apply seq_NoDup|]. intros i I. apply in_seq in I. lia.
Qed.
Lemma gw_in x w : In (x, w) gw_data <-> TQ (dJ al) (bJ al) n (2 * x - 1) = 0
  /\ w * rsum n (fun k => (TQ (dJ al) (bJ al) k (2 * x - 1) / beta (bJ al) k) ^ 2) = 1 / INR (al + 1).
Proof.
  unfold gw_data. rewrite in_map_iff. split.
  - intros (i & E & I). apply in_seq in I. injection E as <- <-. split; [apply gw_root; exists i; split; [lia|reflexivity]|apply gw_weight_value; lia].
  - intros (H1 & H2). apply gw_root in H1. destruct H1 as (i & Hi & <-). exists i. split; [|apply in_seq; lia].
    f_equal. pose proof (gw_weight_value i Hi) as E. rewrite <- H2 in E.
    apply Rmult_eq_reg_r in E; [exact E|]. intros Z. rewrite Z, Rmult_0_r in H2.
    assert (0 < 1 / INR (al + 1)) by (apply Rdiv_lt_0_compat; [lra|apply lt_0_INR; lia]). lra.
Qed.
End Rule.
