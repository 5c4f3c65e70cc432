(** What the checks of the quadrature test program compute. *)
From Coq Require Import NArith ZArith PeanoNat Bool List Reals Factorial Lia Lra.
From Coquelicot Require Import Coquelicot.
From Verif Require Import M_Type M_RefGeo M_QuadFactory M_Quadrature M_QuadTest S_Topo S_RefGeo S_Quad1D S_QuadND S_QuadTest
  P_Type P_Type2 P_Topo P_RefGeo2 P_RefVol P_QuadProd P_QuadAll P_QuadTest1.
Import ListNotations.
Local Open Scope R_scope.

Lemma cube_bits t i : isCube t = true -> (1 <= i < gt_dim t)%nat -> N.testbit (gt_id t) (N.of_nat i) = true.
Proof.
  unfold isCube. rewrite andb_true_iff, N.eqb_eq. intros [_ H] Hi.
  assert (E := f_equal (fun x => N.testbit x (N.of_nat (i - 1))) H). cbn beta in E.
  rewrite N.shiftr_spec, N.bits_0 in E by lia. replace (N.of_nat (i - 1) + 1)%N with (N.of_nat i) in E by lia.
  unfold bit in E. rewrite N.shiftl_1_l in E. rewrite N.lxor_spec, N.sub_1_r, <- N.ones_equiv, N.ones_spec_low in E by lia.
  destruct (N.testbit _ _); [reflexivity|discriminate].
Qed.
Lemma simplex_bits t i : isSimplex t = true -> (1 <= i)%nat -> N.testbit (gt_id t) (N.of_nat i) = false.
Proof.
  unfold isSimplex. rewrite andb_true_iff, N.eqb_eq. intros [_ H] Hi.
  assert (E := f_equal (fun x => N.testbit x (N.of_nat i)) H). cbn beta in E. rewrite N.lor_spec in E.
  replace (N.testbit 1 (N.of_nat i)) with false in E; [now rewrite orb_false_r in E|].
  symmetry. destruct i as [|i]; [lia|]. change 1%N with (2 ^ 0)%N. apply N.pow2_bits_false. lia.
Qed.
Lemma named_shift d pat t : named d pat t = true -> gt_dim t = d /\ N.lor (gt_id t) 1 = pat.
Proof. unfold named. rewrite !andb_true_iff, Nat.eqb_eq, N.eqb_eq. tauto. Qed.
Lemma prism_mom id k n : N.lor id 1 = 5%N -> (k < 3)%nat ->
  momW 0 (topo_of id 3) (powE k n) = if Nat.ltb k 2 then 1 / risingProduct n 2 else 1 / (INR (fact 2) * INR (n + 1)).
Proof.
  intros H Hk. rewrite (proj1 (topo_low id 4 (lor1_shift id 4 H) 3)). rewrite momW_S.
  change (N.testbit 4 (N.of_nat 2)) with true. cbv iota. rewrite simplex_mom.
  2:{ intros i Hi. replace i with 1%nat by lia. reflexivity. }
  rewrite bmom0_0l. destruct (Nat.ltb_spec k 2) as [L|L].
  - rewrite powE_ne by lia. change (INR (0 + 1)) with 1. field. pose proof (risingProduct_pos n 2). lra.
  - replace k with 2%nat by lia. rewrite powE_at. field. split; [apply not_0_INR; lia|apply INR_fact_neq_0].
Qed.
Lemma pyramid_mom id k n : N.lor id 1 = 3%N -> (k < 3)%nat ->
  momW 0 (topo_of id 3) (powE k n) = if Nat.ltb k 2 then 1 / INR ((n + 3) * (n + 1)) else 2 / INR ((n + 1) * (n + 2) * (n + 3)).
Proof.
  intros H Hk. rewrite (proj1 (topo_low id 2 (lor1_shift id 2 H) 3)). rewrite momW_S.
  change (N.testbit 2 (N.of_nat 2)) with false. cbv iota. rewrite cube_mom.
  2:{ intros i Hi. replace i with 1%nat by lia. reflexivity. }
  rewrite !mult_INR. destruct (Nat.ltb_spec k 2) as [L|L].
  - rewrite powE_ne by lia. rewrite (proj1 (powE_in 2 k n L)), bmom0_0r. replace (2 + n + 1)%nat with (n + 3)%nat by lia.
    field. split; apply not_0_INR; lia.
  - replace k with 2%nat by lia. rewrite powE_at. rewrite (proj1 (powE_out 2 2 n (Nat.le_refl 2))).
    rewrite bmom0_rising. cbn [Nat.add risingProduct fact Nat.mul]. change (INR 2) with 2. field. repeat split; apply not_0_INR; lia.
Qed.

(** analyticalSolution returns the integral of the power, or throws *)
Lemma analytical_spec dim t p k : gt_dim t = dim -> (k < dim)%nat -> namedType t ->
  analyticalSolution dim t p k = Some (Iint (topo_of (gt_id t) dim) (fun x => x k ^ p)).
Proof.
  intros Hd Hk Ht. rewrite Iint_pow by (rewrite tdim_topo_of; exact Hk).
  assert (L : Nat.ltb k dim = true) by now apply Nat.ltb_lt.
  destruct dim as [|pdim]; [lia|]. cbn [analyticalSolution].
  destruct (isCube t) eqn:C.
  { rewrite cube_mom, L by (intros; apply cube_bits; auto; lia). reflexivity. }
  destruct (isSimplex t) eqn:S.
  { rewrite simplex_mom, L by (intros; apply simplex_bits; auto; lia). reflexivity. }
  destruct (isPrismT t) eqn:P.
  { apply named_shift in P. destruct P as [P1 P2]. assert (pdim = 2%nat) as -> by lia. rewrite prism_mom by auto.
    destruct (Nat.ltb k 2) eqn:K; [|reflexivity]. reflexivity. }
  destruct (isPyramidT t) eqn:Y.
  { apply named_shift in Y. destruct Y as [Y1 Y2]. assert (pdim = 2%nat) as -> by lia. rewrite pyramid_mom by auto.
    destruct k as [|[|[|k]]]; [reflexivity|reflexivity|reflexivity|lia]. }
  exfalso. destruct Ht as [H|[H|[H|H]]]; congruence.
Qed.
Lemma analytical_none dim t p k : ~ namedType t -> analyticalSolution dim t p k = None.
Proof.
  intros H. unfold namedType in H. destruct dim; cbn [analyticalSolution];
    destruct (isCube t); [elim H; auto| |elim H; auto|]; (destruct (isSimplex t); [elim H; auto|]); (destruct (isPrismT t); [elim H; auto|]);
    (destruct (isPyramidT t); [elim H; auto 6|reflexivity]).
Qed.

Lemma powerSums_quad p pts k : powerSums p pts k = quad pts (fun x => x k ^ p).
Proof.
  unfold powerSums. assert (G : forall a : Vec, fold_left (fun integral q => fun d => integral d + snd q * fst q d ^ p) pts a k = a k + quad pts (fun x => x k ^ p)).
  { induction pts as [|q pts IH]; intros a; cbn [fold_left quad]; [ring|]. rewrite IH. unfold QPoint, Vec in *. cbv beta. ring. }
  rewrite G. ring.
Qed.
Lemma weightSum_quad1 pts : fold_left (fun v q => v + snd q) pts 0 = quad pts (fun _ => 1).
Proof.
  assert (G : forall a, fold_left (fun v (q : QPoint) => v + snd q) pts a = a + quad pts (fun _ => 1)).
  { induction pts as [|q pts IH]; intros a; cbn [fold_left quad]; [ring|]. rewrite IH. unfold QPoint, Vec in *. ring. }
  rewrite G. ring.
Qed.
Lemma testEpsilon_tol eps p : testEpsilon eps p = tolerance eps p.
Proof. destruct p; reflexivity. Qed.

Lemma Iint_pow_pos id dim k n : (k < dim)%nat -> 0 < Iint (topo_of id dim) (fun x => x k ^ n).
Proof.
  intros H. rewrite Iint_pow by (rewrite tdim_topo_of; exact H). pose proof (mom_lower id dim k n) as L.
  replace (Nat.ltb k dim) with true in L by (symmetry; now apply Nat.ltb_lt).
  eapply Rlt_le_trans; [|exact L]. apply Rinv_0_lt_compat, risingProduct_pos.
Qed.
Lemma relativeError_le I E e : 0 < E -> relativeError I E <= e <-> Rabs (I - E) <= e * (Rabs I + Rabs E).
Proof.
  intros H. unfold relativeError. assert (P : 0 < Rabs I + Rabs E) by (pose proof (Rabs_pos I); rewrite (Rabs_right E); lra).
  split; intros K.
  - apply (Rmult_le_compat_r (Rabs I + Rabs E)) in K; [|lra]. unfold Rdiv in K. rewrite Rmult_assoc, Rinv_l, Rmult_1_r in K by lra. exact K.
  - apply (Rmult_le_reg_r (Rabs I + Rabs E)); [exact P|]. unfold Rdiv. rewrite Rmult_assoc, Rinv_l, Rmult_1_r by lra. exact K.
Qed.

Lemma maxRel_spec dim t p integral : gt_dim t = dim -> namedType t -> forall n, (n <= dim)%nat ->
  exists m, maxRelativeError dim t p integral n = Some m /\ 0 <= m
    /\ forall e, 0 <= e -> (m <= e <-> forall k, (k < n)%nat ->
         let E := Iint (topo_of (gt_id t) dim) (fun x => x k ^ p) in Rabs (integral k - E) <= e * (Rabs (integral k) + Rabs E)).
Proof.
  intros Hd Ht. induction n as [|d IH]; intros Hn; cbn [maxRelativeError].
  { exists 0. split; [reflexivity|]. split; [lra|]. intros e He. split; [intros _ k Hk; lia|auto]. }
  destruct (IH ltac:(lia)) as (m & -> & M0 & M). rewrite analytical_spec by (auto; lia).
  set (E := Iint (topo_of (gt_id t) dim) (fun x => x d ^ p)).
  assert (P : 0 < E) by (apply Iint_pow_pos; lia).
  eexists. split; [reflexivity|]. cbv zeta. set (r := relativeError (integral d) E).
  assert (Q : exists m', (if Rltb m r then r else m) = m' /\ forall e, m' <= e <-> m <= e /\ r <= e).
  { unfold Rltb. destruct (Rlt_dec m r); eexists; (split; [reflexivity|]); intros e; lra. }
  destruct Q as (m' & -> & Q). split; [apply Rle_trans with m; [exact M0|]; apply (proj1 (Q m')); lra|].
  intros e He. rewrite Q, (M e He). unfold r. rewrite relativeError_le by exact P. split.
  - intros [A B] k Hk. destruct (Nat.eq_dec k d) as [->|N]; [exact B|]. apply A. lia.
  - intros A. split; [intros k Hk; apply A; lia|]. apply A. lia.
Qed.

Lemma checkQuadrature_named eps dim q : 0 <= eps -> gt_dim (ru_type q) = dim -> namedType (ru_type q) ->
  exists b, checkQuadrature eps dim q = Some b
    /\ (b = true <-> powersOk eps (topo_of (gt_id (ru_type q)) dim) (Z.to_nat (ru_order q)) (ru_points q)).
Proof.
  intros He Hd Ht. unfold checkQuadrature. cbv zeta. set (p := Z.to_nat (ru_order q)).
  destruct (maxRel_spec dim (ru_type q) p (powerSums p (ru_points q)) Hd Ht dim (Nat.le_refl dim)) as (m & -> & _ & M).
  eexists. split; [reflexivity|]. rewrite negb_true_iff. rewrite testEpsilon_tol.
  assert (T : 0 <= tolerance eps p).
  { destruct p; cbn [tolerance]; [lra|]. apply Rmult_le_pos; [|exact He]. apply Rmult_le_pos; [apply pow_le; lra|apply pos_INR]. }
  assert (F : Rltb (tolerance eps p) m = false <-> m <= tolerance eps p).
  { unfold Rltb. destruct (Rlt_dec _ _); split; intros; try reflexivity; try discriminate; lra. }
  rewrite F, (M _ T). unfold powersOk. rewrite tdim_topo_of. split; intros H k Hk; specialize (H k Hk); cbv zeta in *.
  - rewrite powerSums_quad in H. exact H.
  - rewrite powerSums_quad. exact H.
Qed.
Lemma maxRel_none dim t p integral n : ~ namedType t -> (0 < n)%nat -> maxRelativeError dim t p integral n = None.
Proof.
  intros Ht. destruct n as [|n]; [lia|]. intros _. cbn [maxRelativeError]. rewrite analytical_none by exact Ht.
  destruct (maxRelativeError dim t p integral n); reflexivity.
Qed.
