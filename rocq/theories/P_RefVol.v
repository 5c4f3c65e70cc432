(** Integrals of monomials over the reference polytopes; volume and centre of gravity. *)
From Coq Require Import NArith PeanoNat Bool List Lia Reals Lra FunctionalExtensionality Factorial.
From Coquelicot Require Import Coquelicot.
From Verif Require Import M_Type M_RefTopo M_RefGeo P_Type P_Type2 S_Topo P_Topo P_RefTopo P_RefTopo2 P_RefTopo3 P_RSum P_RefGeo P_RefGeo2 P_RefGeo3 S_RefGeo.
Import ListNotations.
Local Open Scope R_scope.

Ltac toR := match goal with |- @eq _ ?a ?b => change (@eq R a b) end.

(** ** The Beta integral *)

Definition Beta (a b : nat) : R := RInt (fun t => (1 - t) ^ a * t ^ b) 0 1.

Lemma ex_Beta a b : ex_RInt (fun t => (1 - t) ^ a * t ^ b) 0 1.
Proof.
  apply (ex_RInt_continuous (V := R_CompleteNormedModule)). intros z _.
  apply (ex_derive_continuous (V := R_NormedModule)). auto_derive. auto.
Qed.

Lemma Beta_0 a : Beta a 0 = / INR (S a).
Proof.
  unfold Beta. apply is_RInt_unique.
  assert (P : INR (S a) <> 0) by (apply not_0_INR; lia).
  replace (/ INR (S a)) with (minus (- (1 - 1) ^ S a / INR (S a)) (- (1 - 0) ^ S a / INR (S a))).
  2:{ unfold minus, plus, opp; simpl plus. replace (1 - 1) with 0 by lra. replace (1 - 0) with 1 by lra.
      rewrite pow1, pow_ne_zero by lia. simpl. field. exact P. }
  apply (is_RInt_derive (V := R_CompleteNormedModule) (fun t => - (1 - t) ^ S a / INR (S a))).
  - intros x _. auto_derive; [auto|].
    replace (match a with 0%nat => 1 | S _ => INR a + 1 end) with (INR (S a)) by (destruct a; reflexivity).
    set (q := INR (S a)) in *. simpl pow. rewrite Rmult_1_r. unfold Rminus, Rdiv. field. exact P.
  - intros x _. apply (ex_derive_continuous (V := R_NormedModule)). auto_derive. auto.
Qed.

Lemma Beta_step a b : INR (S a) * Beta a (S b) = INR (S b) * Beta (S a) b.
Proof.
  assert (H : is_RInt (fun t => INR (S b) * ((1 - t) ^ S a * t ^ b) - INR (S a) * ((1 - t) ^ a * t ^ S b)) 0 1 0).
  { replace 0 with (minus ((1 - 1) ^ S a * 1 ^ S b) ((1 - 0) ^ S a * 0 ^ S b)) at 2.
    2:{ unfold minus, plus, opp; simpl plus. replace (1 - 1) with 0 by lra. rewrite !pow_ne_zero by lia.
        simpl. lra. }
    apply (is_RInt_derive (V := R_CompleteNormedModule) (fun t => (1 - t) ^ S a * t ^ S b)).
    - intros x _. auto_derive; [auto|].
      replace (match a with 0%nat => 1 | S _ => INR a + 1 end) with (INR (S a)) by (destruct a; reflexivity).
      replace (match b with 0%nat => 1 | S _ => INR b + 1 end) with (INR (S b)) by (destruct b; reflexivity).
      simpl pow. unfold Rminus. ring.
    - intros x _. apply (ex_derive_continuous (V := R_NormedModule)). auto_derive. auto. }
  apply (is_RInt_unique (V := R_CompleteNormedModule)) in H.
  rewrite (RInt_minus (V := R_CompleteNormedModule) (fun t => INR (S b) * ((1 - t) ^ S a * t ^ b)) (fun t => INR (S a) * ((1 - t) ^ a * t ^ S b))) in H.
  2,3: apply (ex_RInt_scal (V := R_NormedModule)); apply ex_Beta.
  rewrite !(RInt_scal (V := R_CompleteNormedModule)) in H by apply ex_Beta.
  change (INR (S b) * Beta (S a) b + - (INR (S a) * Beta a (S b)) = 0) in H.
  lra.
Qed.

Lemma Beta_val b : forall a, Beta a b = INR (fact a) * INR (fact b) / INR (fact (S (a + b))).
Proof.
  induction b as [|b IH]; intros a.
  - rewrite Beta_0, Nat.add_0_r. rewrite (fact_simpl a), mult_INR. cbn [fact INR].
    pose proof (INR_fact_neq_0 a). assert (INR (S a) <> 0) by (apply not_0_INR; lia). cbn [INR] in *. field. auto.
  - pose proof (Beta_step a b) as E. rewrite IH in E.
    assert (P : INR (S a) <> 0) by (apply not_0_INR; lia).
    apply (Rmult_eq_reg_l (INR (S a))); [|assumption]. rewrite E.
    replace (S (S a + b)) with (S (a + S b)) by lia.
    rewrite (fact_simpl a), (fact_simpl b), !mult_INR. field. apply INR_fact_neq_0.
Qed.

(** ** Monomials *)

(** x_0^{e_0} ... x_{n-1}^{e_{n-1}} *)
Fixpoint mono (n : nat) (e : nat -> nat) (x : nat -> R) : R :=
  match n with O => 1 | S n' => mono n' e x * x n' ^ e n' end.
Fixpoint degsum (n : nat) (e : nat -> nat) : nat :=
  match n with O => O | S n' => (degsum n' e + e n')%nat end.

Lemma mono_ext n e e' x x' : (forall k, (k < n)%nat -> e k = e' k) -> (forall k, (k < n)%nat -> x k = x' k) ->
  mono n e x = mono n e' x'.
Proof.
  induction n as [|n IH]; intros H H'; [reflexivity|]. cbn [mono].
  rewrite (IH ltac:(intros; apply H; lia) ltac:(intros; apply H'; lia)). rewrite H, H' by lia. reflexivity.
Qed.
Lemma mono_scale n e s x : mono n e (fun k => s * x k) = s ^ degsum n e * mono n e x.
Proof.
  induction n as [|n IH]; cbn [mono degsum]; [simpl; lra|]. rewrite IH, Rpow_mult_distr, pow_add. ring.
Qed.
Lemma mono_0 n e x : (forall k, (k < n)%nat -> e k = O) -> mono n e x = 1.
Proof.
  induction n as [|n IH]; intros H; [reflexivity|]. cbn [mono]. rewrite IH by (intros; apply H; lia).
  rewrite H by lia. simpl. lra.
Qed.
Lemma degsum_0 n e : (forall k, (k < n)%nat -> e k = O) -> degsum n e = O.
Proof. induction n as [|n IH]; intros H; [reflexivity|]. cbn [degsum]. rewrite IH, H; auto. Qed.

(** the moment of the monomial [e] over [T] *)
Fixpoint mom (T : Topo) (e : nat -> nat) : R :=
  match T with
  | Pt => 1
  | Pri b => mom b e * Beta 0 (e (tdim b))
  | Pyr b => mom b e * Beta (tdim b + degsum (tdim b) e) (e (tdim b))
  end.

Lemma Iint_ext T : forall f g, (forall x, f x = g x) -> Iint T f = Iint T g.
Proof. intros f g H. replace g with f by (now apply functional_extensionality). reflexivity. Qed.

Lemma RInt_cBeta c a b : RInt (fun t => c * ((1 - t) ^ a * t ^ b)) 0 1 = c * Beta a b.
Proof. rewrite (RInt_scal (V := R_CompleteNormedModule)) by apply ex_Beta. reflexivity. Qed.

Lemma Iint_mono T : forall c e, Iint T (fun x => c * mono (tdim T) e x) = c * mom T e.
Proof.
  induction T as [|b IH|b IH]; intros c e; cbn [Iint mom tdim mono].
  - lra.
  - rewrite (RInt_ext _ (fun t => (c * mom b e) * ((1 - t) ^ 0 * t ^ e (tdim b)))).
    + rewrite RInt_cBeta. toR. ring.
    + intros t _.
      rewrite (Iint_ext _ _ (fun x => (c * t ^ e (tdim b)) * mono (tdim b) e x)).
      * rewrite IH. simpl. toR. ring.
      * intros x. rewrite Nat.eqb_refl, (mono_ext _ _ e _ x); [ring|reflexivity|].
        intros k Hk. destruct (Nat.eqb_spec k (tdim b)); [lia|reflexivity].
  - rewrite (RInt_ext _ (fun t => (c * mom b e) * ((1 - t) ^ (tdim b + degsum (tdim b) e) * t ^ e (tdim b)))).
    + rewrite RInt_cBeta. toR. ring.
    + intros t _.
      rewrite (Iint_ext _ _ (fun x => (c * (1 - t) ^ degsum (tdim b) e * t ^ e (tdim b)) * mono (tdim b) e x)).
      * rewrite IH, pow_add. toR; ring.
      * intros x. rewrite Nat.eqb_refl, (mono_ext _ _ e _ (fun k => (1 - t) * x k)); [rewrite mono_scale; ring|reflexivity|].
        intros k Hk. destruct (Nat.eqb_spec k (tdim b)); [lia|reflexivity].
Qed.

Lemma mom_ext T : forall e e', (forall k, (k < tdim T)%nat -> e k = e' k) -> mom T e = mom T e'.
Proof.
  induction T as [|b IH|b IH]; intros e e' H; cbn [mom tdim] in *; [reflexivity| |].
  - rewrite (IH e e') by (intros; apply H; lia). rewrite H by lia. reflexivity.
  - rewrite (IH e e') by (intros; apply H; lia). rewrite H by lia. do 2 f_equal.
    f_equal. clear - H. assert (G : forall k, (k < tdim b)%nat -> e k = e' k) by (intros; apply H; lia). clear H.
    revert G. generalize (tdim b). induction n as [|n IH]; intros G; [reflexivity|]. cbn [degsum].
    rewrite IH by (intros; apply G; lia). rewrite G by lia. reflexivity.
Qed.

Lemma volumeT_mom T : volumeT T = mom T (fun _ => O).
Proof.
  unfold volumeT. rewrite (Iint_ext _ _ (fun x => 1 * mono (tdim T) (fun _ => O) x)).
  - rewrite Iint_mono. lra.
  - intros x. rewrite mono_0; auto; lra.
Qed.

Lemma volumeT_tvol T : volumeT T = tvol T.
Proof.
  rewrite volumeT_mom. induction T as [|b IH|b IH]; cbn [mom].
  - unfold tvol. simpl. lra.
  - rewrite IH, Beta_0, tvol_Pri. simpl. lra.
  - rewrite IH, degsum_0, Nat.add_0_r, Beta_0, tvol_Pyr by auto. reflexivity.
Qed.

(** ** First moments *)

Definition edelta (k : nat) : nat -> nat := fun j => if Nat.eqb j k then 1%nat else O.

Lemma mono_edelta n k x : (k < n)%nat -> mono n (edelta k) x = x k.
Proof.
  induction n as [|n IH]; intros H; [lia|]. cbn [mono]. unfold edelta at 2.
  destruct (Nat.eqb_spec n k) as [->|E].
  - rewrite mono_0; [simpl; lra|]. intros j Hj. unfold edelta. destruct (Nat.eqb_spec j k); [lia|reflexivity].
  - rewrite IH by lia. simpl. lra.
Qed.
Lemma degsum_edelta n k : (k < n)%nat -> degsum n (edelta k) = 1%nat.
Proof.
  induction n as [|n IH]; intros H; [lia|]. cbn [degsum]. unfold edelta at 2.
  destruct (Nat.eqb_spec n k) as [->|E].
  - rewrite degsum_0; [reflexivity|]. intros j Hj. unfold edelta. destruct (Nat.eqb_spec j k); [lia|reflexivity].
  - rewrite IH by lia. reflexivity.
Qed.

Lemma Beta_1 a : Beta a 1 = / (INR (S a) * INR (S (S a))).
Proof.
  rewrite Beta_val. rewrite (Nat.add_1_r a). rewrite (fact_simpl (S a)), (fact_simpl a), !mult_INR.
  change (INR (fact 1)) with 1. pose proof (INR_fact_neq_0 a).
  assert (INR (S a) <> 0) by (apply not_0_INR; lia). assert (INR (S (S a)) <> 0) by (apply not_0_INR; lia).
  field. auto.
Qed.

Lemma centroidT_mom T k : (k < tdim T)%nat -> centroidT T k = mom T (edelta k) / tvol T.
Proof.
  intros H. unfold centroidT. rewrite volumeT_tvol. f_equal.
  rewrite (Iint_ext _ _ (fun x => 1 * mono (tdim T) (edelta k) x)); [rewrite Iint_mono; lra|].
  intros x. rewrite mono_edelta by assumption. lra.
Qed.

Lemma mom_edelta_out T k : (tdim T <= k)%nat -> mom T (edelta k) = tvol T.
Proof.
  intros H. rewrite <- volumeT_tvol, volumeT_mom. apply mom_ext. intros j Hj. unfold edelta.
  destruct (Nat.eqb_spec j k); [lia|reflexivity].
Qed.

Lemma centroid_Pri b k : (k < tdim b)%nat -> centroidT (Pri b) k = centroidT b k.
Proof.
  intros H. rewrite !centroidT_mom by (cbn [tdim]; lia). cbn [mom]. rewrite tvol_Pri.
  unfold edelta at 2. destruct (Nat.eqb_spec (tdim b) k); [lia|]. rewrite Beta_0. simpl. unfold Rdiv. lra.
Qed.
Lemma centroid_Pri_top b : centroidT (Pri b) (tdim b) = 1 / 2.
Proof.
  rewrite !centroidT_mom by (cbn [tdim]; lia). cbn [mom]. rewrite tvol_Pri, mom_edelta_out by lia.
  unfold edelta. rewrite Nat.eqb_refl, Beta_1. pose proof (tvol_pos b). simpl. field. lra.
Qed.
Lemma centroid_Pyr b k : (k < tdim b)%nat ->
  centroidT (Pyr b) k = INR (S (tdim b)) / INR (S (S (tdim b))) * centroidT b k.
Proof.
  intros H. rewrite !centroidT_mom by (cbn [tdim]; lia). cbn [mom]. rewrite tvol_Pyr, degsum_edelta by lia.
  unfold edelta at 2. destruct (Nat.eqb_spec (tdim b) k); [lia|]. rewrite Beta_0, Nat.add_1_r.
  pose proof (tvol_pos b).
  assert (INR (S (tdim b)) <> 0) by (apply not_0_INR; lia). assert (INR (S (S (tdim b))) <> 0) by (apply not_0_INR; lia).
  field. repeat split; try assumption; lra.
Qed.
Lemma centroid_Pyr_top b : centroidT (Pyr b) (tdim b) = / INR (S (S (tdim b))).
Proof.
  rewrite !centroidT_mom by (cbn [tdim]; lia). cbn [mom]. rewrite tvol_Pyr, mom_edelta_out by lia.
  rewrite degsum_0 by (intros j Hj; unfold edelta; destruct (Nat.eqb_spec j (tdim b)); [lia|reflexivity]).
  unfold edelta. rewrite Nat.eqb_refl, Nat.add_0_r, Beta_1.
  pose proof (tvol_pos b).
  assert (INR (S (tdim b)) <> 0) by (apply not_0_INR; lia). assert (INR (S (S (tdim b))) <> 0) by (apply not_0_INR; lia).
  field. repeat split; try assumption; lra.
Qed.

Lemma mean_Pri b k : (k < tdim b)%nat -> meanT (Pri b) k = meanT b k.
Proof.
  assert (Q : 0 < INR (length (verts b))) by (apply lt_0_INR, verts_length_pos).
  intros Hk; unfold meanT; rewrite verts_Pri, lsum_app, !lsum_map, app_length, !map_length, plus_INR.
  cbn [forg]. rewrite (lsum_ext (fun a => upd _ _ _ _) (fun v => forg b v k)) by (intros; now rewrite upd_ne by lia).
  field; lra.
Qed.
Lemma mean_Pri_top b : meanT (Pri b) (tdim b) = 1 / 2.
Proof.
  assert (Q : 0 < INR (length (verts b))) by (apply lt_0_INR, verts_length_pos).
  unfold meanT; rewrite verts_Pri, lsum_app, !lsum_map, app_length, !map_length, plus_INR; cbn [forg].
  rewrite lsum_0 by (intros; apply forg_support; lia).
  rewrite (lsum_ext _ (fun _ => 1)) by (intros; apply upd_eq); rewrite lsum_const; field; lra.
Qed.
Lemma mean_Pyr b k : (k < tdim b)%nat ->
  meanT (Pyr b) k = INR (length (verts b)) / INR (S (length (verts b))) * meanT b k.
Proof.
  assert (Q : 0 < INR (length (verts b))) by (apply lt_0_INR, verts_length_pos).
  intros Hk; unfold meanT; rewrite verts_Pyr, lsum_app, lsum_map, app_length, map_length, plus_INR, S_INR.
  cbn [forg lsum fold_right length INR]; rewrite upd_ne by lia; unfold vzero, lsum; field; lra.
Qed.
Lemma mean_Pyr_top b : meanT (Pyr b) (tdim b) = / INR (S (length (verts b))).
Proof.
  assert (Q : 0 < INR (length (verts b))) by (apply lt_0_INR, verts_length_pos).
  unfold meanT; rewrite verts_Pyr, lsum_app, lsum_map, app_length, map_length, plus_INR, S_INR; cbn [forg].
  rewrite lsum_0 by (intros; apply forg_support; lia).
  cbn [lsum fold_right length INR]; rewrite upd_eq; field; lra.
Qed.

Lemma verts_length_ge T : (S (tdim T) <= length (verts T))%nat.
Proof.
  induction T as [|b IH|b IH]; [reflexivity| |].
  - rewrite verts_Pri, app_length, !map_length. cbn [tdim]. lia.
  - rewrite verts_Pyr, app_length, map_length. cbn [tdim length]. lia.
Qed.
Lemma verts_length_simT T : length (verts T) = S (tdim T) -> simT T.
Proof.
  induction T as [|b IH|b IH]; cbn [simT]; [auto| |].
  - rewrite verts_Pri, app_length, !map_length. cbn [tdim]. intros E. pose proof (verts_length_ge b).
    destruct b; cbn [tdim] in *; try lia; reflexivity.
  - rewrite verts_Pyr, app_length, map_length. cbn [tdim length]. intros E. apply IH. lia.
Qed.

(** the corner mean is the centre of gravity exactly for these *)
Fixpoint balanced (T : Topo) : Prop :=
  match T with Pt => True | Pri b => balanced b | Pyr b => simT b end.

Lemma simT_balanced T : simT T -> balanced T.
Proof. destruct T; cbn [simT balanced]; auto. intros ->. exact I. Qed.

Lemma mean_centroid T : (forall k, (k < tdim T)%nat -> meanT T k = centroidT T k) <-> balanced T.
Proof.
  induction T as [|b IH|b IH]; cbn [balanced tdim].
  - split; [auto|]. intros _ k Hk. lia.
  - rewrite <- IH. split; intros H k Hk.
    + rewrite <- mean_Pri, <- centroid_Pri by assumption. apply H. lia.
    + destruct (Nat.eq_dec k (tdim b)) as [->|E]; [now rewrite mean_Pri_top, centroid_Pri_top|].
      rewrite mean_Pri, centroid_Pri by lia. apply H. lia.
  - split.
    + intros H. specialize (H (tdim b) ltac:(lia)). rewrite mean_Pyr_top, centroid_Pyr_top in H.
      apply (f_equal Rinv) in H; rewrite !Rinv_inv in H; apply INR_eq in H. apply verts_length_simT. lia.
    + intros S k Hk. pose proof (simT_verts_length b S) as E.
      destruct (Nat.eq_dec k (tdim b)) as [->|E']; [now rewrite mean_Pyr_top, centroid_Pyr_top, E|].
      rewrite mean_Pyr, centroid_Pyr, E by lia. f_equal. apply IH; [now apply simT_balanced|lia].
Qed.

(** ** The code's integer arithmetic *)

Lemma tvolinv_base_le id dim : (tvolinv (topo_of id dim) <= tvolinv (topo_of id (S dim)))%N.
Proof. cbn [topo_of]. destruct (N.testbit id (N.of_nat dim)); [destruct dim|]; cbn [tvolinv tdim]; try lia. Qed.

Lemma referenceVolumeInverse_spec dim : forall id, (dim < 256)%nat ->
  (tvolinv (topo_of id (pred dim)) < 2 ^ 32)%N ->
  referenceVolumeInverse id dim = tvolinv (topo_of id dim).
Proof.
  induction dim as [|d IH]; intros id Hd H; [reflexivity|].
  cbn [pred] in H. cbn [referenceVolumeInverse].
  rewrite IH; rewrite ?topo_of_base; [|lia|].
  2:{ destruct d; [exact H|]. cbn [pred]. pose proof (tvolinv_base_le id d).
      eapply N.le_lt_trans; [|exact H].
      rewrite (topo_of_ext _ id d); [assumption|]. intros k Hk. rewrite baseId_testbit.
      destruct (Nat.ltb_spec k (S d)); [apply andb_true_r|lia]. }
  rewrite N.mod_small by exact H.
  destruct (topo_cases id d) as [[P ->]|[[P ->]|(P & -> & ->)]]; rewrite P; cbn [tvolinv].
  - reflexivity.
  - rewrite tdim_topo_of, N.mul_comm. apply N.mod_small.
    set (v := tvolinv _) in *. assert (E : (N.of_nat (S d) <= 256)%N) by lia.
    change (2 ^ 64)%N with (2 ^ 32 * 2 ^ 32)%N.
    apply N.le_lt_trans with (256 * v)%N; [apply N.mul_le_mono_r; exact E|].
    apply N.mul_lt_mono; [reflexivity|exact H].
  - reflexivity.
Qed.

Fixpoint nfact (n : nat) : N := match n with O => 1%N | S n' => (N.of_nat n * nfact n')%N end.
Lemma nfact_mono n m : (n <= m)%nat -> (nfact n <= nfact m)%N.
Proof. induction 1; cbn [nfact]; nia. Qed.
Lemma tvolinv_fact T : (tvolinv T <= nfact (tdim T))%N.
Proof. induction T as [|b IH|b IH]; cbn [tvolinv tdim nfact]; nia. Qed.
Lemma tvolinv_fact_simplex T : simT T -> tvolinv T = N.of_nat (fact (tdim T)).
Proof.
  induction T as [|b IH|b IH]; cbn [tvolinv tdim simT]; intros H.
  - reflexivity.
  - subst b. reflexivity.
  - rewrite fact_simpl, Nat2N.inj_mul, <- IH by assumption. lia.
Qed.
Lemma tvolinv_cube T : cubT T -> tvolinv T = 1%N.
Proof.
  induction T as [|b IH|b IH]; cbn [tvolinv tdim cubT]; intros H; auto.
  subst b. reflexivity.
Qed.
Lemma referenceVolume_small dim id : (dim <= 13)%nat ->
  referenceVolume id dim = tvol (topo_of id dim).
Proof.
  intros H. unfold referenceVolume, tvol. rewrite referenceVolumeInverse_spec; [unfold Rdiv; lra|lia|].
  eapply N.le_lt_trans; [apply tvolinv_fact|]. rewrite tdim_topo_of.
  apply N.le_lt_trans with (nfact 12); [|vm_compute; reflexivity].
  apply nfact_mono. lia.
Qed.
