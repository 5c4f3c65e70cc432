(** Refined elements in floating point: nonnegative finite numbers are determined by their value,
    and the values of the corners are functions of the lattice points. *)
From Coq Require Import PeanoNat NArith ZArith Bool List Reals Lra Lia.
From Flocq Require Import Core IEEE754.BinarySingleNaN.
From Verif Require Import M_Type M_RefTopo M_RefGeo M_Matrix M_Affine M_Float M_Refine M_FloatRefine S_RefGeo S_Refine
  P_RefGeo P_RefGeo3 P_RSum P_Refine1 P_Refine2 P_Refine3 P_Refine4 P_Refine5 P_Refine6 P_Float P_Float2.
Import ListNotations.
Local Open Scope R_scope.

Lemma k2r_idA {A} : forall (f : A -> A -> A) dim (y : nat -> A) i, (i < dim)%nat ->
  kuhnToReference f dim y idp i = if Nat.ltb (S i) dim then f (y i) (y (S i)) else y i.
Proof.
  intros f dim y i Hi. destruct (k2r_spec f dim idp y (isPerm_id dim)) as (B1 & B2 & _).
  destruct (Nat.ltb_spec (S i) dim); [now apply B1|]. assert (i = dim - 1)%nat by lia. subst i. apply B2. lia.
Qed.

Section FP.
Variables (prec emax : Z).
Context (Hp : Prec_gt_0 prec) (He : Prec_lt_emax prec emax).
Hypothesis H2 : (2 <= prec)%Z.
Notation float := (binary_float prec emax).
Notation fexp := (SpecFloat.fexp prec emax).
Notation rnd := (round radix2 fexp (round_mode mode_NE)).
Notation u := (bpow radix2 (- prec)).
Notation add := (fadd prec emax Hp He).
Notation sub := (fsub prec emax Hp He).
Notation mul := (fmul prec emax Hp He).
Notation div := (fdiv prec emax Hp He).
Notation ofZ := (ofZ prec emax Hp He).
Notation format := (generic_format radix2 fexp).
Local Instance vexpR : Valid_exp fexp := fexp_correct prec emax Hp.

(** a finite number with clear sign bit and value [r] *)
Definition fnn (x : float) (r : R) : Prop := is_finite x = true /\ Bsign x = false /\ B2R x = r.
Lemma fnn_eq : forall x y r, fnn x r -> fnn y r -> x = y.
Proof. intros x y r (F & S & V) (F' & S' & V'). apply B2R_Bsign_inj; congruence. Qed.
Lemma fnn_format : forall x r, fnn x r -> format r.
Proof. intros x r (_ & _ & <-). apply generic_format_B2R. Qed.

Lemma format_int : forall k, (0 <= k)%Z -> IZR k <= bpow radix2 prec -> format (IZR k).
Proof.
  intros k K H. pose proof (prec_emax prec emax He). destruct (Rle_lt_or_eq_dec _ _ H) as [L|E].
  - apply generic_format_FLT. exists (Float radix2 k 0).
    + unfold F2R. cbn. ring.
    + cbn. apply lt_IZR. rewrite abs_IZR, Rabs_pos_eq by now apply IZR_le.
      replace (IZR (2 ^ prec)) with (bpow radix2 prec); [exact L|].
      rewrite <- IZR_Zpower by lia. reflexivity.
    + cbn. unfold SpecFloat.emin. lia.
  - rewrite E. apply format_bpow; try assumption. unfold Prec_gt_0 in Hp. lia.
Qed.
Lemma ofZ_gen : forall k, (0 <= k)%Z -> IZR k <= bpow radix2 (emax - 1) -> fnn (ofZ k) (rnd (IZR k)).
Proof.
  intros k K H. pose proof (binary_normalize_correct prec emax Hp He mode_NE k 0 false) as C. cbn zeta in C.
  assert (E : F2R (Float radix2 k 0) = IZR k) by (unfold F2R; cbn; ring). rewrite E in C.
  assert (A : Rabs (IZR k) = IZR k) by (apply Rabs_pos_eq; now apply IZR_le).
  rewrite Rlt_bool_true in C by (apply rnd_big; [assumption..|]; now rewrite A).
  destruct C as (C1 & C2 & C3). split; [exact C2|split; [|exact C1]].
  unfold M_Float.ofZ. rewrite C3. apply IZR_le in K. destruct (Rcompare_spec (IZR k) 0); auto. lra.
Qed.
Lemma prec_big : bpow radix2 prec <= bpow radix2 (emax - 1).
Proof. apply bpow_le. pose proof (prec_emax prec emax He). lia. Qed.
Lemma ofZ_nn : forall k, (0 <= k)%Z -> IZR k <= bpow radix2 prec -> fnn (ofZ k) (IZR k).
Proof.
  intros k K H. rewrite <- (rnd_id prec emax (IZR k)) by now apply format_int.
  apply ofZ_gen; [exact K|]. pose proof prec_big. lra.
Qed.
Lemma rnd_nn : forall v, 0 <= v -> 0 <= rnd v.
Proof. intros v H. apply round_ge_generic; [typeclasses eauto..| |exact H]. apply generic_format_0. Qed.
Lemma rnd_le1 : forall v, v <= 1 -> rnd v <= 1.
Proof. intros v H. apply round_le_generic; [typeclasses eauto..| |exact H]. now apply format_1. Qed.

Lemma add_nn : forall a b r s, fnn a r -> fnn b s -> 0 <= r -> 0 <= s -> r + s <= bpow radix2 (emax - 1) ->
  fnn (add a b) (rnd (r + s)).
Proof.
  intros a b r s (Fa & Sa & Va) (Fb & Sb & Vb) R S H.
  pose proof (Bplus_correct prec emax Hp He mode_NE a b Fa Fb) as C. rewrite Va, Vb in C.
  rewrite Rlt_bool_true in C by (apply rnd_big; [assumption..|]; rewrite Rabs_pos_eq; lra).
  destruct C as (C1 & C2 & C3). split; [exact C2|split; [|exact C1]].
  unfold fadd. rewrite C3, Sa, Sb. destruct (Rcompare_spec (r + s) 0); auto. lra.
Qed.
Lemma sub_nn : forall a b r s, fnn a r -> fnn b s -> 0 <= s -> s <= r -> r <= bpow radix2 (emax - 1) ->
  fnn (sub a b) (rnd (r - s)).
Proof.
  intros a b r s (Fa & Sa & Va) (Fb & Sb & Vb) S R H.
  pose proof (Bminus_correct prec emax Hp He mode_NE a b Fa Fb) as C. rewrite Va, Vb in C.
  rewrite Rlt_bool_true in C by (apply rnd_big; [assumption..|]; rewrite Rabs_pos_eq; lra).
  destruct C as (C1 & C2 & C3). split; [exact C2|split; [|exact C1]].
  unfold fsub. rewrite C3, Sa, Sb. destruct (Rcompare_spec (r - s) 0); auto. lra.
Qed.
Lemma mul_nn : forall a b r s, fnn a r -> fnn b s -> 0 <= r -> 0 <= s -> r * s <= bpow radix2 (emax - 1) ->
  fnn (mul a b) (rnd (r * s)).
Proof.
  intros a b r s (Fa & Sa & Va) (Fb & Sb & Vb) R S H.
  pose proof (Bmult_correct prec emax Hp He mode_NE a b) as C. rewrite Va, Vb in C.
  rewrite Rlt_bool_true in C by (apply rnd_big; [assumption..|]; rewrite Rabs_pos_eq; nra).
  destruct C as (C1 & C2 & C3). rewrite Fa, Fb in C2. split; [exact C2|split; [|exact C1]].
  unfold fmul. rewrite C3, Sa, Sb; [reflexivity|]. unfold fmul in *. destruct (Bmult mode_NE a b); cbn in *; congruence.
Qed.
Lemma div_nn : forall a b r s, fnn a r -> fnn b s -> 0 <= r -> 0 < s -> r / s <= bpow radix2 (emax - 1) ->
  fnn (div a b) (rnd (r / s)).
Proof.
  intros a b r s (Fa & Sa & Va) (Fb & Sb & Vb) R S H.
  pose proof (Bdiv_correct prec emax Hp He mode_NE a b ltac:(lra)) as C. rewrite Va, Vb in C.
  assert (0 <= r / s) by (apply Rmult_le_pos; [exact R|left; now apply Rinv_0_lt_compat]).
  rewrite Rlt_bool_true in C by (apply rnd_big; [assumption..|]; rewrite Rabs_pos_eq; lra).
  destruct C as (C1 & C2 & C3). rewrite Fa in C2. split; [exact C2|split; [|exact C1]].
  unfold fdiv. rewrite C3, Sa, Sb; [reflexivity|]. destruct (Bdiv mode_NE a b); cbn in *; congruence.
Qed.

Lemma one_big : 1 <= bpow radix2 (emax - 1).
Proof. change 1 with (bpow radix2 0). apply bpow_le. pose proof (prec_emax prec emax He). lia. Qed.
Lemma two_big : 2 <= bpow radix2 (emax - 1).
Proof. change 2 with (bpow radix2 1). apply bpow_le. pose proof (prec_emax prec emax He). lia. Qed.

(** ** quotients of lattice coordinates *)
Variable n : nat.
Hypothesis Hn : (0 < n)%nat.
Hypothesis Nn : INR n <= bpow radix2 prec.
Definition vh (k : nat) : R := rnd (INR k / INR n).
Lemma n_pos : 0 < INR n.
Proof. now apply lt_0_INR. Qed.
Lemma ofZ_nat : forall k, (k <= n)%nat -> fnn (ofZ (Z.of_nat k)) (INR k).
Proof.
  intros k K. rewrite INR_IZR_INZ. apply ofZ_nn; [lia|]. rewrite <- INR_IZR_INZ. apply le_INR in K. lra.
Qed.
Lemma quo_range : forall k, (k <= n)%nat -> 0 <= INR k / INR n <= 1.
Proof.
  intros k K. pose proof n_pos. apply le_INR in K. pose proof (pos_INR k). split.
  - apply Rmult_le_pos; [assumption|left; now apply Rinv_0_lt_compat].
  - apply div_le; lra.
Qed.
Lemma vh_range : forall k, (k <= n)%nat -> 0 <= vh k <= 1.
Proof. intros k K. pose proof (quo_range k K). split; [apply rnd_nn|apply rnd_le1]; lra. Qed.
Lemma vh_mono : forall k l, (k <= l)%nat -> vh k <= vh l.
Proof.
  intros k l H. apply rnd_le; [assumption|]. apply Rmult_le_compat_r; [left; apply Rinv_0_lt_compat, n_pos|now apply le_INR].
Qed.
Lemma vh_err : forall k, (k <= n)%nat -> Rabs (vh k - INR k / INR n) <= u.
Proof. intros k K. apply rnd_err; try assumption. pose proof (quo_range k K). rewrite Rabs_pos_eq; lra. Qed.
Lemma vh_format : forall k, format (vh k).
Proof. intros k. now apply rnd_fmt. Qed.
Lemma vh_0 : vh 0 = 0.
Proof. unfold vh. cbn [INR]. unfold Rdiv. rewrite Rmult_0_l. apply round_0. typeclasses eauto. Qed.
Lemma vh_n : vh n = 1.
Proof.
  unfold vh. pose proof n_pos. replace (INR n / INR n) with 1 by (field; lra).
  apply rnd_id. now apply format_1.
Qed.
Lemma vh_quo : forall k, (k <= n)%nat -> fnn (div (ofZ (Z.of_nat k)) (ofZ (Z.of_nat n))) (vh k).
Proof.
  intros k K. apply div_nn; [now apply ofZ_nat|apply ofZ_nat; lia|apply pos_INR|exact n_pos|].
  pose proof (quo_range k K). pose proof one_big. lra.
Qed.

(** ** the corners of the refined simplex *)
Definition cval (dim : nat) (w : nat -> nat) (j : nat) : R :=
  rnd (vh (w j) - (if Nat.ltb (S j) dim then vh (w (S j)) else 0)).
Definition cexact (dim : nat) (w : nat -> nat) (j : nat) : R :=
  INR (w j) / INR n - (if Nat.ltb (S j) dim then INR (w (S j)) / INR n else 0).
Lemma grid_le : forall dim w j, gridPoint dim n w -> (j < dim)%nat -> (w j <= n)%nat.
Proof.
  intros dim w j [A B] H. induction j; [apply A; lia|]. etransitivity; [apply B; exact H|]. apply IHj. lia.
Qed.
Lemma cval_ext : forall dim w w', agree dim w w' -> agree dim (cval dim w) (cval dim w').
Proof.
  intros dim w w' A j Hj. unfold cval. rewrite (A j Hj). destruct (Nat.ltb_spec (S j) dim); [|reflexivity]. now rewrite (A (S j)).
Qed.
Lemma cval_nn : forall dim w (v : nat -> float), gridPoint dim n w -> (forall j, (j < dim)%nat -> fnn (v j) (vh (w j))) ->
  forall j, (j < dim)%nat -> fnn (kuhnToReference sub dim v idp j) (cval dim w j).
Proof.
  intros dim w v G V j Hj. rewrite k2r_idA by exact Hj. unfold cval. destruct (Nat.ltb_spec (S j) dim) as [L|L].
  - pose proof (vh_range _ (grid_le dim w j G Hj)). pose proof one_big.
    apply sub_nn; [now apply V|now apply V|now apply vh_range, (grid_le dim)|apply vh_mono, G; exact L|lra].
  - rewrite Rminus_0_r, rnd_id by apply vh_format. now apply V.
Qed.
Lemma cval_range : forall dim w j, gridPoint dim n w -> (j < dim)%nat -> 0 <= cval dim w j <= 1.
Proof.
  intros dim w j G Hj. pose proof (vh_range _ (grid_le dim w j G Hj)). unfold cval. split.
  - apply rnd_nn. destruct (Nat.ltb_spec (S j) dim) as [L|L]; [|lra].
    pose proof (vh_mono _ _ (proj2 G j L)). lra.
  - apply rnd_le1. destruct (Nat.ltb_spec (S j) dim) as [L|L]; [|lra].
    pose proof (vh_range _ (grid_le dim w (S j) G L)). lra.
Qed.
Lemma cval_err : forall dim w j, gridPoint dim n w -> (j < dim)%nat -> Rabs (cval dim w j - cexact dim w j) <= 3 * u.
Proof.
  intros dim w j G Hj. pose proof (vh_range _ (grid_le dim w j G Hj)) as B. pose proof (vh_err _ (grid_le dim w j G Hj)) as E.
  pose proof (u_pos prec) as U.
  unfold cval, cexact. destruct (Nat.ltb_spec (S j) dim) as [L|L].
  - pose proof (vh_range _ (grid_le dim w (S j) G L)) as B'. pose proof (vh_err _ (grid_le dim w (S j) G L)) as E'.
    pose proof (rnd_err prec emax Hp He H2 (vh (w j) - vh (w (S j)))) as X.
    assert (Rabs (vh (w j) - vh (w (S j))) < 2) by (apply Rabs_def1; lra). specialize (X H).
    apply Rabs_le_inv in X, E, E'. apply Rabs_le. lra.
  - rewrite !Rminus_0_r, rnd_id by apply vh_format. apply Rabs_le_inv in E. apply Rabs_le. lra.
Qed.

(** referenceToKuhn of the corners of the reference simplex is exact *)
Lemma ofZ_bit : forall b : bool, fnn (if b then ofZ 1 else ofZ 0) (if b then 1 else 0).
Proof.
  assert (1 <= bpow radix2 prec) by (change 1 with (bpow radix2 0); apply bpow_le; lia).
  intros []; apply ofZ_nn; try lia; lra.
Qed.
Lemma r2k_corner_nn : forall dim p q i, isPerm dim p -> (forall i, (i < dim)%nat -> q (p i) = i) -> (forall i, (i < dim)%nat -> p (q i) = i) ->
  isPerm dim q -> (i <= dim)%nat -> forall j, (j < dim)%nat ->
  fnn (referenceToKuhn add dim (fcornerpos prec emax Hp He i) p j) (if Nat.ltb (q j) (chainPos q i) then 1 else 0).
Proof.
  intros dim p q i P qp pq Q Hi.
  destruct (r2k_spec add dim p (fcornerpos prec emax Hp He i) P) as (A1 & A2 & _).
  destruct (r2k_spec Rplus dim p (sc i) P) as (B1 & B2 & _).
  assert (G : forall m j, (j + m = dim - 1)%nat -> (j < dim)%nat ->
    fnn (referenceToKuhn add dim (fcornerpos prec emax Hp He i) p (p j)) (referenceToKuhn Rplus dim (sc i) p (p j))).
  { induction m as [|m IH]; intros j E Hj.
    - assert (j = dim - 1)%nat by lia. subst j. rewrite A2, B2 by lia. unfold fcornerpos, sc. apply ofZ_bit.
    - rewrite A1 by lia. specialize (IH (S j) ltac:(lia) ltac:(lia)).
      assert (V : forall a, (a < dim)%nat -> let x := referenceToKuhn Rplus dim (sc i) p (p a) in (x = 0 \/ x = 1)).
      { intros a Ha x. unfold x. rewrite (r2k_corner dim p q i (p a)) by (auto; apply P; exact Ha). destruct (Nat.ltb _ _); auto. }
      assert (F : format (referenceToKuhn Rplus dim (sc i) p (p j))).
      { destruct (V j Hj) as [-> | ->]; [apply generic_format_0|now apply format_1]. }
      rewrite <- (rnd_id prec emax _ F). rewrite (B1 j) by lia.
      pose proof two_big.
      apply add_nn; [unfold fcornerpos, sc; apply ofZ_bit|exact IH| | |].
      + unfold sc. destruct (Nat.eqb i (S (p j))); lra.
      + destruct (V (S j) ltac:(lia)); lra.
      + rewrite <- (B1 j) by lia. destruct (V j Hj) as [-> | ->]; lra. }
  intros j Hj. pose proof (proj1 Q j Hj) as Qj. specialize (G (dim - 1 - q j)%nat (q j) ltac:(lia) Qj). rewrite pq in G by exact Hj.
  rewrite (r2k_corner dim p q i j) in G by auto. exact G.
Qed.

Lemma nth_map_some {A B} : forall (f : A -> B) l i a, nth_error l i = Some a -> nth_error (map f l) i = Some (f a).
Proof. intros. now apply map_nth_error. Qed.

(** the corners of an element: rounded differences of rounded quotients *)
Lemma se_cornersF_spec : forall dim s p q, getPermutation dim (se_kuhn s) = Some p -> isPerm dim p -> isPerm dim q ->
  (forall i, (i < dim)%nat -> q (p i) = i) -> (forall i, (i < dim)%nat -> p (q i) = i) -> se_size s = n ->
  (forall i, (i <= dim)%nat -> gridPoint dim n (cornerAt q (se_origin s) i)) ->
  exists cs, se_cornersF prec emax Hp He dim s = Some cs /\ length cs = (dim + 1)%nat
    /\ forall i, (i <= dim)%nat -> exists x, nth_error cs i = Some x
       /\ forall j, (j < dim)%nat -> fnn (x j) (cval dim (cornerAt q (se_origin s) (chainPos q i)) j).
Proof.
  intros dim s p q E P Q qp pq Es G.
  set (g := fun i => kuhnToReference sub dim (fun j => div (add (referenceToKuhn add dim (fcornerpos prec emax Hp He i) p j)
                       (ofZ (Z.of_nat (se_origin s j)))) (ofZ (Z.of_nat (se_size s)))) idp).
  exists (map g (seq 0 (dim + 1))). split; [|split].
  - unfold se_cornersF. apply sequence_map. intros i _. unfold se_globalF. rewrite E, getPermutation_zero. reflexivity.
  - now rewrite map_length, seq_length.
  - intros i Hi. exists (g i). split.
    + rewrite nth_error_map, (nth_error_nth' _ 0%nat) by (rewrite seq_length; lia). now rewrite seq_nth by lia.
    + intros j Hj. unfold g. assert (C := chainPos_le dim q i Q Hi). apply cval_nn; [now apply G| |exact Hj].
      intros l Hl. set (w := cornerAt q (se_origin s) (chainPos q i)).
      assert (W : (w l <= n)%nat) by (apply (grid_le dim w l); [now apply G|exact Hl]).
      unfold vh. rewrite Es. pose proof (quo_range _ W) as QR. pose proof one_big as OB. pose proof (le_INR _ _ W) as WR.
      assert (FW : format (INR (w l))).
      { rewrite INR_IZR_INZ. apply format_int; [lia|]. rewrite <- INR_IZR_INZ. lra. }
      apply div_nn; [|apply ofZ_nat; lia|apply pos_INR|exact n_pos|lra].
      rewrite <- (rnd_id prec emax _ FW).
      assert (WE : INR (w l) = (if Nat.ltb (q l) (chainPos q i) then 1 else 0) + INR (se_origin s l)).
      { unfold w, cornerAt. rewrite plus_INR. destruct (Nat.ltb _ _); cbn [INR]; ring. }
      pose proof prec_big as PB. rewrite WE. apply add_nn.
      * now apply r2k_corner_nn.
      * apply ofZ_nat. unfold w, cornerAt in W. lia.
      * destruct (Nat.ltb _ _); lra.
      * apply pos_INR.
      * rewrite <- WE. lra.
Qed.
End FP.
