(** The rules of the factory pass the checks of the quadrature test program. *)
From Coq Require Import NArith ZArith PeanoNat Bool List Reals Factorial Lia Lra.
From Coquelicot Require Import Coquelicot.
From Verif Require Import M_Type M_TypeIndex M_RefGeo M_QuadFactory M_Tab M_TabSimplex M_Quadrature M_QuadTest
  S_Topo S_RefGeo S_Quad S_Quad1D S_QuadND S_QuadTest
  P_Type P_Type2 P_Topo P_RefGeo2 P_RefVol P_QuadFactory P_QuadFix P_QuadProd P_QuadFixN P_TabSimplex P_QuadRules P_QuadAll P_QuadTest1 P_QuadTest2.
Import ListNotations.
Local Open Scope R_scope.

(** ** relative errors of the integrals of powers; k from the dimension on is the constant *)
Definition relOK (id : N) (d n : nat) (delta : R) (pts : list QPoint) : Prop :=
  forall k, Rabs (quad pts (monomial d (powE k n)) - momW 0 (topo_of id d) (powE k n))
            <= delta * momW 0 (topo_of id d) (powE k n).

Lemma fact_rising n d : INR (fact d) <= risingProduct n d.
Proof.
  induction d as [|d IH]; [cbn; lra|]. cbn [risingProduct]. change (fact (S d)) with (S d * fact d)%nat. rewrite mult_INR, Rmult_comm.
  apply Rmult_le_compat; [apply pos_INR|apply pos_INR|exact IH|apply le_INR; lia].
Qed.
Lemma mom_lower' id d k n : / risingProduct n d <= momW 0 (topo_of id d) (powE k n).
Proof.
  eapply Rle_trans; [|apply mom_lower]. destruct (Nat.ltb k d); [lra|].
  apply Rinv_le_contravar; [apply INR_fact_lt_0|apply fact_rising].
Qed.
Lemma powE_degree d k n : (degree d (powE k n) <= n)%nat.
Proof.
  destruct (Nat.lt_ge_cases k d) as [H|H]; [rewrite (proj1 (powE_in d k n H))|rewrite (proj1 (powE_out d k n H))]; lia.
Qed.
Lemma momExact_rel id d n err pts : 0 <= err -> momExact 0 (topo_of id d) n err pts -> relOK id d n (err * risingProduct n d) pts.
Proof.
  intros He H k. specialize (H (powE k n)). rewrite tdim_topo_of in H. specialize (H (powE_degree d k n)).
  eapply Rle_trans; [exact H|]. pose proof (mom_lower' id d k n) as L. pose proof (risingProduct_pos n d) as P.
  rewrite Rmult_assoc. rewrite <- (Rmult_1_r err) at 1. apply Rmult_le_compat_l; [exact He|].
  apply (Rmult_le_compat_l (risingProduct n d)) in L; [|lra]. rewrite Rinv_r in L by lra. exact L.
Qed.
Lemma relOK_weaken id d n x y pts : x <= y -> relOK id d n x pts -> relOK id d n y pts.
Proof.
  intros H R k. eapply Rle_trans; [apply R|]. apply Rmult_le_compat_r; [apply momW_bounds|exact H].
Qed.
Lemma relOK_powers id d n delta pts : relOK id d n delta pts -> delta <= tolerance epsDouble n ->
  powersOk epsDouble (topo_of id d) n pts.
Proof.
  intros H D k. rewrite tdim_topo_of. intros Hk. cbv zeta. specialize (H k).
  rewrite (quad_ext _ (monomial d (powE k n)) (fun x => x k ^ n)) in H by (intros; now apply powE_in).
  rewrite Iint_pow by (rewrite tdim_topo_of; exact Hk).
  pose proof (momW_bounds 0 (topo_of id d) (powE k n)) as [M _]. set (m := momW 0 (topo_of id d) (powE k n)) in *.
  eapply Rle_trans; [exact H|]. rewrite (Rabs_right m) by lra. pose proof (Rabs_pos (quad pts (fun x => x k ^ n))).
  assert (0 <= tolerance epsDouble n).
  { destruct n; cbn [tolerance]; unfold epsDouble; [|apply Rmult_le_pos; [apply Rmult_le_pos; [apply pow_le; lra|apply pos_INR]|]];
      try (pose proof (Rinv_0_lt_compat (2 ^ 52) ltac:(apply pow_lt; lra)); lra). }
  nra.
Qed.

(** ** growth of the rising products *)
Lemma pow2_S n : 2 ^ S n = 2 * 2 ^ n.
Proof. reflexivity. Qed.
Lemma grow4 n : (1 <= n)%nat -> risingProduct n 4 <= 60 * (2 ^ n * INR n).
Proof.
  intros H. induction H as [|n H IH]; [cbn; lra|].
  cbn [risingProduct] in *. rewrite pow2_S. rewrite !plus_INR, !S_INR in *. cbn [INR] in *.
  assert (N : 1 <= INR n) by (replace 1 with (INR 1) by reflexivity; now apply le_INR).
  set (x := INR n) in *. assert (P : 0 < 2 ^ n) by (apply pow_lt; lra). set (y := 2 ^ n) in *.
  (* (x+2)(x+3)(x+4)(x+5) x <= 2 (x+1)^2 (x+2)(x+3)(x+4) <= ... *)
  assert (A : (x + 5) * x <= 2 * (x + 1) * (x + 1)) by nra.
  assert (Q : 0 < (x + 2) * (x + 3) * (x + 4)) by (repeat apply Rmult_lt_0_compat; lra).
  apply (Rmult_le_reg_r x); [lra|].
  replace (1 * (x + 1 + (0 + 1)) * (x + 1 + (0 + 1 + 1)) * (x + 1 + (0 + 1 + 1 + 1)) * (x + 1 + (0 + 1 + 1 + 1 + 1)) * x)
    with ((x + 2) * (x + 3) * (x + 4) * ((x + 5) * x)) by ring.
  apply Rle_trans with ((x + 2) * (x + 3) * (x + 4) * (2 * (x + 1) * (x + 1))); [apply Rmult_le_compat_l; lra|].
  replace ((x + 2) * (x + 3) * (x + 4) * (2 * (x + 1) * (x + 1))) with (2 * (x + 1) * ((1 * (x + (0 + 1)) * (x + (0 + 1 + 1)) * (x + (0 + 1 + 1 + 1)) * (x + (0 + 1 + 1 + 1 + 1))))) by ring.
  apply Rle_trans with (2 * (x + 1) * (60 * (y * x))); [apply Rmult_le_compat_l; lra|]. right. ring.
Qed.
Lemma grow3 n : (1 <= n)%nat -> risingProduct n 3 <= 12 * (2 ^ n * INR n).
Proof.
  intros H. assert (G := grow4 n H). cbn [risingProduct] in *. rewrite !plus_INR in *. cbn [INR] in *.
  assert (N : 1 <= INR n) by (replace 1 with (INR 1) by reflexivity; now apply le_INR).
  set (x := INR n) in *. set (z := 2 ^ n * x) in *.
  assert (Q : 0 < (x + 1) * (x + 2) * (x + 3)) by (repeat apply Rmult_lt_0_compat; lra).
  assert ((x + 1) * (x + 2) * (x + 3) * 5 <= (x + 1) * (x + 2) * (x + 3) * (x + 4)) by (apply Rmult_le_compat_l; lra).
  lra.
Qed.
Lemma rising_mono n d d' : (d <= d')%nat -> risingProduct n d <= risingProduct n d'.
Proof.
  intros H. induction H as [|d' H IH]; [lra|]. cbn [risingProduct].
  pose proof (risingProduct_pos n d'). assert (1 <= INR (n + S d')) by (replace 1 with (INR 1) by reflexivity; apply le_INR; lia). nra.
Qed.

Lemma eps_val : epsDouble = 1 / 4503599627370496.
Proof. unfold epsDouble. lra. Qed.
Lemma p10v k z : (10 ^ k = z)%Z -> IZR (10 ^ k) = IZR z.
Proof. now intros ->. Qed.

(** errors that are small enough in every dimension up to 4, or 3 *)
Lemma fine4 d n err : (d <= 4)%nat -> 0 <= err <= 3 / 1000000000000000000 -> err * risingProduct n d <= tolerance epsDouble n.
Proof.
  intros Hd He. pose proof (rising_mono n d 4 Hd) as M. pose proof (risingProduct_pos n d).
  apply Rle_trans with (err * risingProduct n 4); [apply Rmult_le_compat_l; lra|].
  destruct n as [|n]; cbn [tolerance]; rewrite eps_val.
  - cbn [risingProduct]. rewrite !plus_INR. cbn [INR]. lra.
  - pose proof (grow4 (S n) ltac:(lia)) as G. set (z := 2 ^ S n * INR (S n)) in *.
    assert (0 < z) by (apply Rmult_lt_0_compat; [apply pow_lt; lra|apply lt_0_INR; lia]).
    apply Rle_trans with (err * (60 * z)); [apply Rmult_le_compat_l; lra|]. nra.
Qed.
Lemma fine3 d n err : (d <= 3)%nat -> 0 <= err <= 1 / 100000000000000000 -> err * risingProduct n d <= tolerance epsDouble n.
Proof.
  intros Hd He. pose proof (rising_mono n d 3 Hd) as M. pose proof (risingProduct_pos n d).
  apply Rle_trans with (err * risingProduct n 3); [apply Rmult_le_compat_l; lra|].
  destruct n as [|n]; cbn [tolerance]; rewrite eps_val.
  - cbn [risingProduct]. rewrite !plus_INR. cbn [INR]. lra.
  - pose proof (grow3 (S n) ltac:(lia)) as G. set (z := 2 ^ S n * INR (S n)) in *.
    assert (0 < z) by (apply Rmult_lt_0_compat; [apply pow_lt; lra|apply lt_0_INR; lia]).
    apply Rle_trans with (err * (12 * z)); [apply Rmult_le_compat_l; lra|]. nra.
Qed.

(** ** the conical product *)
Lemma bmom_lower d k n : / risingProduct n (S d) <= bmom 0 (d + degree d (powE k n)) (powE k n d).
Proof.
  pose proof (risingProduct_pos n (S d)) as P. destruct (Nat.eq_dec k d) as [->|N].
  - rewrite powE_at, (proj1 (powE_out d d n (Nat.le_refl d))), Nat.add_0_r, bmom0_rising. unfold Rdiv.
    rewrite <- (Rmult_1_l (/ _)) at 1. apply Rmult_le_compat_r; [left; now apply Rinv_0_lt_compat|].
    replace 1 with (INR 1) by reflexivity. apply le_INR, lt_O_fact.
  - rewrite powE_ne, bmom0_0r by auto. unfold Rdiv. rewrite Rmult_1_l. pose proof (powE_degree d k n).
    apply Rinv_le_contravar; [apply lt_0_INR; lia|]. cbn [risingProduct]. pose proof (risingProduct_ge1 n d).
    apply Rle_trans with (INR (n + S d)); [apply le_INR; lia|]. pose proof (pos_INR (n + S d)). nra.
Qed.
Lemma rel_prod A a B b x y : 0 <= a -> 0 <= b -> 0 <= x -> 0 <= y -> Rabs (A - a) <= x * a -> Rabs (B - b) <= y * b ->
  Rabs (A * B - a * b) <= (x + y + x * y) * (a * b).
Proof.
  intros Ha Hb Hx Hy H1 H2. pose proof (prod_err A a B b (x * a) (y * b) a b H1 H2 ltac:(rewrite Rabs_right; lra) ltac:(rewrite Rabs_right; lra)) as P.
  eapply Rle_trans; [exact P|]. right. ring.
Qed.
Lemma conical_rel (respect : bool) id d n delta e base oned : 0 <= delta -> 0 <= e -> N.testbit id (N.of_nat d) = false ->
  relOK id d n delta base -> betaExact 0 (if respect then d else 0) (if respect then n else n + d)%nat e oned ->
  relOK id (S d) n (delta + e * risingProduct n (S d) + delta * (e * risingProduct n (S d))) (conicalProduct d respect base oned).
Proof.
  intros Hd He Bit H Ho k. rewrite momW_S, Bit. pose proof (risingProduct_pos n (S d)) as RP.
  rewrite (quad_conical d respect base oned _ (monomial d (powE k n))
    (fun z => (1 - z) ^ degree d (powE k n) * z ^ powE k n d)).
  2:{ intros x y. apply mono_split_c. }
  rewrite (quad_ext oned _ (fun y => (1 - y 0%nat) ^ (if respect then degree d (powE k n) else d + degree d (powE k n)) * y 0%nat ^ powE k n d)).
  2:{ intros y. destruct respect; [simpl; ring|]. rewrite pow_add. ring. }
  pose proof (bmom_lower d k n) as L. pose proof (powE_degree (S d) k n) as D. cbn [degree] in D.
  apply rel_prod; auto; try apply momW_bounds; try apply bmom_bounds; [apply Rmult_le_pos; lra|].
  assert (Q : Rabs (quad oned (fun y => (1 - y 0%nat) ^ (if respect then degree d (powE k n) else d + degree d (powE k n)) * y 0%nat ^ powE k n d)
               - bmom 0 (d + degree d (powE k n)) (powE k n d)) <= e).
  { destruct respect.
    - specialize (Ho (degree d (powE k n)) (powE k n d) D). rewrite Nat.add_comm in Ho. exact Ho.
    - specialize (Ho (d + degree d (powE k n))%nat (powE k n d) ltac:(lia)). rewrite Nat.add_0_r in Ho. exact Ho. }
  eapply Rle_trans; [exact Q|]. rewrite Rmult_assoc. rewrite <- (Rmult_1_r e) at 1. apply Rmult_le_compat_l; [exact He|].
  apply (Rmult_le_compat_l (risingProduct n (S d))) in L; [|lra]. rewrite Rinv_r in L by lra. exact L.
Qed.

Lemma conical_length d r base oned : length (conicalProduct d r base oned) = (length base * length oned)%nat.
Proof.
  unfold conicalProduct. induction base as [|b base IH]; [reflexivity|]. cbn [flat_map length Nat.mul]. rewrite app_length, map_length. f_equal. exact IH.
Qed.
Lemma tensor_length d base oned : length (tensorProduct d base oned) = (length base * length oned)%nat.
Proof.
  unfold tensorProduct. induction base as [|b base IH]; [reflexivity|]. cbn [flat_map length Nat.mul]. rewrite app_length, map_length. f_equal. exact IH.
Qed.
Lemma beta_nonempty sh n e o : e < / INR (S sh) -> betaExact 0 sh n e o -> (1 <= length o)%nat.
Proof.
  intros He H. destruct o as [|q o]; [|cbn [length]; lia]. exfalso. specialize (H 0%nat 0%nat ltac:(lia)). cbn [quad] in H.
  rewrite bmom0_0r in H. cbn [Nat.add] in H. rewrite Nat.add_1_r in H. rewrite Rabs_left1 in H.
  - unfold Rdiv in H. lra.
  - assert (0 < 1 / INR (S sh)); [|lra]. apply Rdiv_lt_0_compat; [lra|apply lt_0_INR; lia].
Qed.

Lemma mom_nonempty id d n err pts : (d <= 4)%nat -> err < / 24 -> momExact 0 (topo_of id d) n err pts -> (1 <= length pts)%nat.
Proof.
  intros Hd He H. destruct pts as [|q pts]; [|cbn [length]; lia]. exfalso. specialize (H (powE 0 0)).
  rewrite tdim_topo_of, powE_zero in H. specialize (H ltac:(lia)). cbn [quad] in H.
  pose proof (mom_lower' id d 0 0) as L. pose proof (rising_mono 0 d 4 Hd) as M. pose proof (risingProduct_pos 0 d).
  assert (K : / risingProduct 0 4 <= / risingProduct 0 d) by (apply Rinv_le_contravar; assumption).
  replace (risingProduct 0 4) with 24 in K by (cbn; lra).
  rewrite Rabs_left1 in H by (pose proof (momW_bounds 0 (topo_of id d) (powE 0 0)); lra). lra.
Qed.
