(** Property C80: the order one Lagrange elements and the functions and geometries built from them. *)
From Coq Require Import PeanoNat NArith ZArith Bool List Reals Lia Lra.
From Verif Require Import M_Type M_RefTopo M_RefGeo M_Matrix M_Affine M_MultiLinear M_GaussNewton M_LocalFE
  S_Topo S_RefGeo S_Matrix S_MultiLinear S_GaussNewton S_Agree P_Type P_Topo P_RefTopo P_RefTopo3 P_RSum P_RefTopo2 P_RefGeo P_RefGeo2 P_RefGeo3 P_RefGeo4 P_Matrix P_ML1 P_ML2 P_ML3
  P_GaussNewton P_LocalFE T_RefGeo T_GaussNewton.
Import ListNotations.
Local Open Scope R_scope.

Lemma q1_sum x : forall n, rsum (2 ^ n) (fun i => q1p x i n) = 1.
Proof.
  induction n as [|n IH]; [cbn; unfold q1p; cbn [forN]; lra|].
  replace (2 ^ S n)%nat with (2 ^ n + 2 ^ n)%nat by (cbn; lia). rewrite rsum_app.
  rewrite (rsum_ext _ (fun i => q1p x i (S n)) (fun i => q1p x i n * (1 - x n))).
  2:{ intros k Hk. rewrite q1p_S. unfold q1_factor. now rewrite (proj1 (testbit_high _ _ Hk)). }
  rewrite (rsum_ext _ (fun i => q1p x (2 ^ n + i) (S n)) (fun i => q1p x i n * x n)).
  2:{ intros k Hk. rewrite Nat.add_comm, q1p_S, q1p_low by lia. unfold q1_factor. now rewrite (proj2 (testbit_high _ _ Hk)). }
  rewrite !rsum_scal_r, IH. ring.
Qed.

(** the shape functions add up to one at every point *)
Theorem C80_partition :
  forall dim x, rsum (length (p1_values dim x)) (fun i => nth i (p1_values dim x) 0) = 1 /\
    rsum (length (q1_values dim x)) (fun i => nth i (q1_values dim x) 0) = 1.
Proof.
  intros dim x. rewrite (proj1 (p1_length dim x)), (proj1 (q1_length dim x)). split.
  - rewrite rsum_shift, p1_0. rewrite (rsum_ext dim (fun k => nth (S k) (p1_values dim x) 0) x) by (intros k Hk; now apply p1_S). ring.
  - rewrite (rsum_ext _ _ (fun i => q1p x i dim)) by (intros k Hk; now apply q1_nth). apply q1_sum.
Qed.
Print Assumptions C80_partition.

Lemma q1p_corner i j : forall n, (forall k, (k < n)%nat -> Nat.testbit i k = Nat.testbit j k) ->
  q1p (fun k => if Nat.testbit j k then 1 else 0) i n = 1.
Proof.
  induction n as [|n IH]; intro H; [reflexivity|]. rewrite q1p_S, IH by (intros; apply H; lia). unfold q1_factor. rewrite H by lia.
  destruct (Nat.testbit j n); ring.
Qed.
Lemma q1p_corner_0 i j k : forall n, (k < n)%nat -> Nat.testbit i k <> Nat.testbit j k ->
  q1p (fun k => if Nat.testbit j k then 1 else 0) i n = 0.
Proof.
  induction n as [|n IH]; intros Hk N; [lia|]. rewrite q1p_S. destruct (Nat.eq_dec k n) as [->|].
  - unfold q1_factor. destruct (Nat.testbit i n), (Nat.testbit j n); try congruence; ring.
  - rewrite IH by (auto; lia). ring.
Qed.
Lemma bits_differ n i j : (i < 2 ^ n)%nat -> (j < 2 ^ n)%nat -> i <> j -> exists k, (k < n)%nat /\ Nat.testbit i k <> Nat.testbit j k.
Proof.
  revert i j. induction n as [|n IH]; intros i j Hi Hj N; [cbn in *; lia|]. cbn [Nat.pow Nat.mul] in *.
  assert (D : forall m, (m < 2 ^ n + (2 ^ n + 0))%nat -> exists m', (m' < 2 ^ n)%nat /\ (m = m' \/ m = (m' + 2 ^ n)%nat)).
  { intros m Hm. destruct (Nat.lt_ge_cases m (2 ^ n)); [exists m; lia|exists (m - 2 ^ n)%nat; lia]. }
  destruct (D i Hi) as (i' & Li & Ei). destruct (D j Hj) as (j' & Lj & Ej).
  destruct (Nat.eq_dec i' j') as [E|NE].
  - subst j'. exists n. split; [lia|]. destruct (testbit_high _ _ Li) as [T1 T2].
    destruct Ei as [-> | ->], Ej as [-> | ->]; congruence.
  - destruct (IH i' j' Li Lj NE) as (k & Hk & Q). exists k. split; [lia|].
    destruct Ei as [-> | ->], Ej as [-> | ->]; rewrite ?testbit_low by assumption; exact Q.
Qed.

(** every shape function is one at its own corner of the reference element and zero at the others *)
Theorem C80_kronecker :
  forall id dim i j p, (id < 2 ^ N.of_nat dim)%N -> (dim < 256)%nat -> nth_error (referenceCorners id dim) j = Some p ->
    (isSimplex (GT2 id dim) = true -> (i <= dim)%nat -> nth i (p1_values dim p) 0 = if Nat.eqb i j then 1 else 0) /\
    (isCube (GT2 id dim) = true -> (i < 2 ^ dim)%nat -> nth i (q1_values dim p) 0 = if Nat.eqb i j then 1 else 0).
Proof.
  intros id dim i j p Hid Hd Hp. assert (L : (j < length (referenceCorners id dim))%nat) by (apply nth_error_Some; congruence).
  assert (Hid' := Hid). rewrite <- bit_pow in Hid'. split; intros HC Hi.
  - assert (P := C16_simplex_corners id dim j p Hid HC Hp).
    apply isSimplex_simT in HC; auto. rewrite corners_verts, map_length, (simT_verts_length _ HC), tdim_topo_of in L.
    destruct i as [|i].
    + rewrite p1_0. destruct j as [|j].
      * cbn [Nat.eqb]. rewrite rsum_0; [ring|]. intros k Hk. now rewrite P.
      * cbn [Nat.eqb]. rewrite (rsum_ext dim p (fun k => if Nat.eqb k j then (fun _ => 1) k else 0)).
        -- rewrite rsum_delta by lia. ring.
        -- intros k Hk. rewrite P. cbn [Nat.eqb]. now rewrite Nat.eqb_sym.
    + rewrite p1_S by lia. rewrite P. now rewrite Nat.eqb_sym.
  - assert (P := C16_cube_corners id dim j p Hid Hd HC Hp).
    apply isCube_cubT in HC; auto. rewrite corners_verts, map_length, (cubT_verts_length _ HC), tdim_topo_of in L.
    rewrite q1_nth by assumption.
    assert (E : q1p p i dim = q1p (fun k => if Nat.testbit j k then 1 else 0) i dim).
    { unfold q1p. apply forN_ext. intros k s Hk. unfold q1_factor. now rewrite P. }
    rewrite E. destruct (Nat.eqb_spec i j) as [->|N].
    + now apply q1p_corner.
    + destruct (bits_differ dim i j Hi L N) as (k & Hk & Q). now apply (q1p_corner_0 i j k).
Qed.
Print Assumptions C80_kronecker.

Lemma rsum_one n i (a : nat -> R) : (i < n)%nat -> rsum n (fun k => a k * (if Nat.eqb i k then 1 else 0)) = a i.
Proof.
  intro Hi. rewrite (rsum_ext n _ (fun k => if Nat.eqb k i then a k else 0)); [now apply rsum_delta|].
  intros k Hk. rewrite (Nat.eqb_sym i k). destruct (Nat.eqb k i); ring.
Qed.

(** on the reference element the values are not negative *)
Theorem C80_nonneg :
  forall id dim x i, (id < 2 ^ N.of_nat dim)%N -> (dim < 256)%nat -> in_hull dim (referenceCorners id dim) x ->
    (isSimplex (GT2 id dim) = true -> (i <= dim)%nat -> 0 <= nth i (p1_values dim x) 0) /\
    (isCube (GT2 id dim) = true -> (i < 2 ^ dim)%nat -> 0 <= nth i (q1_values dim x) 0).
Proof.
  intros id dim x i Hid Hd (w & W0 & W1 & W2). assert (Hid' := Hid). rewrite <- bit_pow in Hid'.
  assert (W1' : rsum (length (referenceCorners id dim)) w = 1) by exact W1. clear W1.
  assert (W0' : forall i, (i < length (referenceCorners id dim))%nat -> 0 <= w i) by exact W0. clear W0. rename W0' into W0.
  split; intros HC Hi.
  - assert (LN : length (referenceCorners id dim) = S dim).
    { assert (Q := HC). apply isSimplex_simT in Q; auto. now rewrite corners_verts, map_length, (simT_verts_length _ Q), tdim_topo_of. }
    assert (X : forall k, (k < dim)%nat -> x k = w (S k)).
    { intros k Hk. rewrite W2 by assumption. change (rsum (length (referenceCorners id dim)) (fun i => w i * nth i (referenceCorners id dim) vzero k) = w (S k)).
      rewrite LN in *. rewrite (rsum_ext _ _ (fun i => w i * (if Nat.eqb (S k) i then 1 else 0))).
      - apply rsum_one. lia.
      - intros j Hj. f_equal. rewrite (C16_simplex_corners id dim j (nth j (referenceCorners id dim) vzero) Hid HC); [now rewrite Nat.eqb_sym|].
        apply nth_error_nth'. lia. }
    rewrite LN in *. destruct i as [|i].
    + rewrite p1_0. rewrite (rsum_ext dim x (fun k => w (S k))) by exact X. rewrite rsum_shift in W1'. specialize (W0 0%nat ltac:(lia)). lra.
    + rewrite p1_S by lia. rewrite X by lia. apply W0. lia.
  - assert (LN : length (referenceCorners id dim) = (2 ^ dim)%nat).
    { assert (Q := HC). apply isCube_cubT in Q; auto. now rewrite corners_verts, map_length, (cubT_verts_length _ Q), tdim_topo_of. }
    assert (X : forall k, (k < dim)%nat -> 0 <= x k <= 1).
    { intros k Hk. rewrite W2 by assumption. change (0 <= rsum (length (referenceCorners id dim)) (fun i => w i * nth i (referenceCorners id dim) vzero k) <= 1).
      assert (B : forall j, (j < length (referenceCorners id dim))%nat -> 0 <= nth j (referenceCorners id dim) vzero k <= 1).
      { intros j Hj. rewrite (C16_cube_corners id dim j (nth j (referenceCorners id dim) vzero) Hid Hd HC) by now apply nth_error_nth'.
        destruct (Nat.testbit j k); lra. }
      split.
      - apply rsum_nonneg. intros j Hj. apply Rmult_le_pos; [now apply W0|now apply B].
      - rewrite <- W1'. apply rsum_le. intros j Hj. specialize (W0 j Hj). specialize (B j Hj). nra. }
    rewrite q1_nth by assumption. clear -X. induction dim as [|n IH]; [unfold q1p; cbn [forN]; lra|].
    rewrite q1p_S. apply Rmult_le_pos; [apply IH; intros; apply X; lia|]. specialize (X n ltac:(lia)). unfold q1_factor. destruct (Nat.testbit i n); lra.
Qed.
Print Assumptions C80_nonneg.

(** the Jacobians returned are the derivatives of the values *)
Theorem C80_derivative :
  forall dim p i,
    ((i <= dim)%nat -> frechet dim 1 (fun x => Some (fun _ => nth i (p1_values dim x) 0)) p (fun _ => nth i (p1_jacobians dim p) vzero)) /\
    ((i < 2 ^ dim)%nat -> frechet dim 1 (fun x => Some (fun _ => nth i (q1_values dim x) 0)) p (fun _ => nth i (q1_jacobians dim p) vzero)).
Proof.
  intros dim p i. split; intro Hi.
  - set (o := if Nat.eqb i 0 then 1 else 0). set (m := fun j => if Nat.eqb i 0 then -1 else if Nat.eqb i (S j) then 1 else 0).
    assert (V : forall x, nth i (p1_values dim x) 0 = o + rsum dim (fun j => m j * x j)).
    { intro x. unfold o, m. destruct i as [|i]; cbn [Nat.eqb].
      - rewrite p1_0, rsum_scal. ring.
      - rewrite p1_S by lia. rewrite (rsum_ext dim _ (fun j => x j * (if Nat.eqb i j then 1 else 0))) by (intros; ring). rewrite rsum_one by lia. ring. }
    eexists. split; [reflexivity|]. intros eps He. exists 1. split; [lra|]. intros h H0 _. eexists. split; [reflexivity|]. intros k Hk. cbv beta.
    rewrite !V. rewrite (rsum_ext dim (fun j => nth i (p1_jacobians dim p) vzero j * h j) (fun j => m j * h j)).
    2:{ intros j Hj. f_equal. unfold m. destruct i as [|i]; cbn [Nat.eqb]; [now apply p1_jac_0|]. apply p1_jac_S; lia. }
    rewrite (rsum_ext dim (fun j => m j * (p j + h j)) (fun j => m j * p j + m j * h j)) by (intros; ring). rewrite rsum_plus.
    match goal with |- Rabs ?z <= _ => replace z with 0 by ring end. rewrite Rabs_R0. apply Rmult_le_pos; [lra|]. apply rsum_nonneg. intros; apply Rabs_pos.
  - assert (Q := frechet_q1 dim p i dim (le_n _)).
    assert (Q' : frechet dim 1 (fun x => Some (fun _ => q1p x i dim)) p (fun _ => nth i (q1_jacobians dim p) vzero)).
    { refine (frechet_meq dim 1 _ p _ _ _ Q). intros k j Hk Hj. cbv beta. rewrite (proj2 (Nat.ltb_lt j dim)) by assumption. now rewrite q1_jac. }
    destruct Q' as (Fp & E & K). injection E as <-. eexists. split; [reflexivity|]. intros eps He. destruct (K eps He) as (d & Pd & V). exists d. split; [exact Pd|].
    intros h H0 Hh. destruct (V h H0 Hh) as (Fq & E & B). injection E as <-. eexists. split; [reflexivity|]. intros k Hk. cbv beta. rewrite !q1_nth by assumption. exact (B k Hk).
Qed.
Print Assumptions C80_derivative.

(** interpolation evaluates the function at the corners of the reference element, in their order *)
Theorem C80_interpolate :
  forall (C : Type) id dim (f : Vec -> C), (id < 2 ^ N.of_nat dim)%N -> (dim < 256)%nat ->
    (forall x y, veq dim x y -> f x = f y) ->
    (isSimplex (GT2 id dim) = true -> p1_interpolate dim f = map f (referenceCorners id dim)) /\
    (isCube (GT2 id dim) = true -> q1_interpolate dim f = map f (referenceCorners id dim)).
Proof.
  intros C id dim f Hid Hd Hf. assert (Hid' := Hid). rewrite <- bit_pow in Hid'. split; intro HC.
  - assert (LN : length (referenceCorners id dim) = S dim).
    { assert (Q := HC). apply isSimplex_simT in Q; auto. now rewrite corners_verts, map_length, (simT_verts_length _ Q), tdim_topo_of. }
    apply (nth_ext _ _ (f vzero) (f vzero)); [unfold p1_interpolate; cbn [length]; now rewrite entries_length, map_length, LN|].
    intros i Hi. unfold p1_interpolate in Hi. cbn [length] in Hi. rewrite entries_length in Hi.
    rewrite map_nth. set (p := nth i (referenceCorners id dim) vzero).
    assert (P := C16_simplex_corners id dim i p Hid HC ltac:(apply nth_error_nth'; lia)).
    unfold p1_interpolate. destruct i as [|i]; cbn [nth].
    + apply Hf. intros k Hk. now rewrite P.
    + rewrite entries_nth by lia. apply Hf. intros k Hk. rewrite (vec_loop dim (fun j => if Nat.eqb i j then 1 else 0)), (proj2 (Nat.ltb_lt k dim)) by assumption. now rewrite P.
  - assert (LN : length (referenceCorners id dim) = (2 ^ dim)%nat).
    { assert (Q := HC). apply isCube_cubT in Q; auto. now rewrite corners_verts, map_length, (cubT_verts_length _ Q), tdim_topo_of. }
    apply (nth_ext _ _ (f vzero) (f vzero)); [unfold q1_interpolate; now rewrite entries_length, map_length, LN|].
    intros i Hi. unfold q1_interpolate in *. rewrite entries_length in Hi.
    rewrite map_nth. set (p := nth i (referenceCorners id dim) vzero).
    assert (P := C16_cube_corners id dim i p Hid Hd HC ltac:(apply nth_error_nth'; lia)).
    rewrite entries_nth by lia. apply Hf. intros k Hk. rewrite (vec_loop dim (fun j => if Nat.testbit i j then 1 else 0)), (proj2 (Nat.ltb_lt k dim)) by assumption. now rewrite P.
Qed.
Print Assumptions C80_interpolate.

(** interpolation is the inverse of evaluation: the coefficients come back *)
Theorem C80_unisolvent :
  forall dim (c : list R),
    (length c = S dim ->
       p1_interpolate dim (fun x => rsum (length c) (fun i => nth i (p1_values dim x) 0 * nth i c 0)) = c) /\
    (length c = (2 ^ dim)%nat -> (dim < 256)%nat ->
       q1_interpolate dim (fun x => rsum (length c) (fun i => nth i (q1_values dim x) 0 * nth i c 0)) = c).
Proof.
  intros dim c. split; [intro L|intros L Hd].
  - apply (nth_ext _ _ 0 0); [unfold p1_interpolate; cbn [length]; now rewrite entries_length, L|].
    intros i Hi. unfold p1_interpolate in *. cbn [length] in Hi. rewrite entries_length in Hi. rewrite L.
    destruct i as [|i]; cbn [nth].
    + rewrite rsum_shift, p1_0. rewrite rsum_0 by (intros; reflexivity). rewrite rsum_0; [ring|]. intros k Hk. rewrite p1_S by assumption. unfold vzero. ring.
    + rewrite entries_nth by lia. set (e := forN dim _ vzero).
      assert (E : forall k, (k < dim)%nat -> e k = if Nat.eqb i k then 1 else 0).
      { intros k Hk. unfold e. rewrite (vec_loop dim (fun j => if Nat.eqb i j then 1 else 0)). now rewrite (proj2 (Nat.ltb_lt k dim)). }
      rewrite rsum_shift, p1_0. rewrite (rsum_ext dim e (fun k => 1 * (if Nat.eqb i k then 1 else 0))) by (intros; rewrite E by assumption; ring).
      rewrite rsum_one by lia. rewrite (rsum_ext dim _ (fun k => nth (S k) c 0 * (if Nat.eqb i k then 1 else 0))).
      2:{ intros k Hk. rewrite p1_S, E by assumption. ring. }
      rewrite (rsum_one dim i (fun k => nth (S k) c 0)) by lia. ring.
  - apply (nth_ext _ _ 0 0); [unfold q1_interpolate; now rewrite entries_length, L|].
    intros i Hi. unfold q1_interpolate in *. rewrite entries_length in Hi. rewrite L, entries_nth by assumption. set (e := forN dim _ vzero).
    assert (E : forall k, (k < dim)%nat -> e k = if Nat.testbit i k then 1 else 0).
    { intros k Hk. unfold e. rewrite (vec_loop dim (fun j => if Nat.testbit i j then 1 else 0)). now rewrite (proj2 (Nat.ltb_lt k dim)). }
    rewrite (rsum_ext _ _ (fun k => nth k c 0 * (if Nat.eqb i k then 1 else 0))); [now apply rsum_one|].
    intros k Hk. rewrite q1_nth by assumption.
    assert (EP : q1p e k dim = q1p (fun l => if Nat.testbit i l then 1 else 0) k dim).
    { unfold q1p. apply forN_ext. intros l s Hl. unfold q1_factor. now rewrite E. }
    rewrite EP. destruct (Nat.eqb_spec i k) as [->|N].
    + rewrite q1p_corner by auto. ring.
    + destruct (bits_differ dim k i Hk Hi ltac:(congruence)) as (l & Hl & Q). rewrite (q1p_corner_0 k i l) by auto. ring.
Qed.
Print Assumptions C80_unisolvent.

(** P1 reproduces affine functions; Q1 reproduces every function that is affine in each
    coordinate separately *)
Theorem C80_reproduce :
  forall dim (f : Vec -> R) x, (forall x y, veq dim x y -> f x = f y) ->
    ((exists o m, forall x, f x = o + rsum dim (fun j => m j * x j)) ->
       f x = rsum (S dim) (fun i => nth i (p1_values dim x) 0 * nth i (p1_interpolate dim f) 0)) /\
    ((forall x j t, (j < dim)%nat -> f (upd x j t) = (1 - t) * f (upd x j 0) + t * f (upd x j 1)) ->
       f x = rsum (2 ^ dim) (fun i => nth i (q1_values dim x) 0 * nth i (q1_interpolate dim f) 0)).
Proof.
  intros dim f x Hf. split.
  - intros (o & m & F). rewrite rsum_shift, p1_0. unfold p1_interpolate at 1. cbn [nth]. rewrite (F vzero).
    rewrite (rsum_0 dim (fun j => m j * vzero j)) by (intros; unfold vzero; ring).
    rewrite (rsum_ext dim (fun k => nth (S k) (p1_values dim x) 0 * nth (S k) (p1_interpolate dim f) 0) (fun k => o * x k + m k * x k)).
    + rewrite rsum_plus, rsum_scal, F. ring.
    + intros k Hk. rewrite p1_S by assumption. unfold p1_interpolate. cbn [nth]. rewrite entries_nth by assumption. rewrite F.
      rewrite (rsum_ext dim _ (fun j => m j * (if Nat.eqb k j then 1 else 0))).
      2:{ intros j Hj. rewrite (vec_loop dim (fun j => if Nat.eqb k j then 1 else 0)). now rewrite (proj2 (Nat.ltb_lt j dim)). }
      rewrite rsum_one by assumption. ring.
  - intro F.
    assert (K : forall n, (n <= dim)%nat -> f x = rsum (2 ^ n) (fun i => q1p x i n * f (fun k => if Nat.ltb k n then if Nat.testbit i k then 1 else 0 else x k))).
    { induction n as [|n IH]; intro Hn.
      - cbn [Nat.pow rsum]. unfold q1p. cbn [forN]. rewrite Rmult_1_l, Rplus_0_l. apply Hf. intros k Hk. reflexivity.
      - rewrite IH by lia. clear IH. replace (2 ^ S n)%nat with (2 ^ n + 2 ^ n)%nat by (cbn; lia). rewrite rsum_app, <- rsum_plus. apply rsum_ext. intros i Hi.
        rewrite (Nat.add_comm (2 ^ n) i), !q1p_S, q1p_low by lia. unfold q1_factor. destruct (testbit_high _ _ Hi) as [T1 T2]. rewrite T1, T2.
        set (b := fun k => if Nat.ltb k n then if Nat.testbit i k then 1 else 0 else x k).
        assert (Eb : f b = f (upd b n (x n))).
        { apply Hf. intros k Hk. unfold upd. destruct (Nat.eqb_spec k n) as [->|]; [|reflexivity]. unfold b. now rewrite Nat.ltb_irrefl. }
        rewrite Eb, F by lia.
        assert (E0 : f (upd b n 0) = f (fun k => if Nat.ltb k (S n) then if Nat.testbit i k then 1 else 0 else x k)).
        { apply Hf. intros k Hk. unfold upd, b. destruct (Nat.eqb_spec k n) as [->|].
          - rewrite (proj2 (Nat.ltb_lt n (S n))) by lia. now rewrite T1.
          - destruct (Nat.ltb_spec k n), (Nat.ltb_spec k (S n)); try lia; reflexivity. }
        assert (E1 : f (upd b n 1) = f (fun k => if Nat.ltb k (S n) then if Nat.testbit (i + 2 ^ n) k then 1 else 0 else x k)).
        { apply Hf. intros k Hk. unfold upd, b. destruct (Nat.eqb_spec k n) as [->|].
          - rewrite (proj2 (Nat.ltb_lt n (S n))) by lia. now rewrite T2.
          - destruct (Nat.ltb_spec k n), (Nat.ltb_spec k (S n)); try lia; [|reflexivity]. now rewrite testbit_low. }
        rewrite E0, E1. ring. }
    rewrite (K dim (le_n _)). apply rsum_ext. intros i Hi. rewrite q1_nth by assumption. f_equal.
    unfold q1_interpolate. rewrite entries_nth by assumption. apply Hf. intros k Hk.
    rewrite (vec_loop dim (fun j => if Nat.testbit i j then 1 else 0)). now rewrite (proj2 (Nat.ltb_lt k dim) Hk).
Qed.
Print Assumptions C80_reproduce.

(** LocalFiniteElementFunction evaluates what the geometry with these vertices evaluates, and
    its derivative is the derivative *)
Theorem C80_function :
  forall dim cdim f p, (lff_fe f = P1 dim /\ length (lff_coefficients f) = S dim \/ lff_fe f = Q1 dim /\ length (lff_coefficients f) = (2 ^ dim)%nat) ->
    (exists v, lff_eval cdim f p = Some v /\
       forall k, (k < cdim)%nat -> v k = rsum (length (lff_coefficients f)) (fun i => nth i (fe_values (lff_fe f) p) 0 * nth i (lff_coefficients f) vzero k)) /\
    exists D, lff_derivative dim cdim f p = Some D /\ frechet dim cdim (lff_eval cdim f) p D.
Proof.
  intros dim cdim f p HF.
  set (g := {| lf_id := 0; lf_ref := []; lf_fe := lff_fe f; lf_vertices := lff_coefficients f |}).
  assert (LV : forall x, length (fe_values (lf_fe g) x) = length (lf_vertices g)).
  { intro x. unfold g. cbn [lf_fe lf_vertices]. destruct HF as [[-> L]|[-> L]]; rewrite L; [apply p1_length|apply q1_length]. }
  assert (LJ : forall x, length (fe_jacobians (lf_fe g) x) = length (lf_vertices g)).
  { intro x. unfold g. cbn [lf_fe lf_vertices]. destruct HF as [[-> L]|[-> L]]; rewrite L; [apply p1_length|apply q1_length]. }
  split.
  - exact (C57_global cdim g p (LV p)).
  - apply (C57_jacobian_is_derivative dim cdim g p LV (LJ p)). intros i Hi. unfold g in *. cbn [lf_fe lf_vertices] in *.
    destruct HF as [[-> L]|[-> L]]; rewrite L in Hi; cbn [P1 Q1 fe_values fe_jacobians].
    + apply C80_derivative. lia.
    + now apply C80_derivative.
Qed.
Print Assumptions C80_function.

(** bilinear function xy + 2 on the square *)
Example C80_example :
  q1_interpolate 2 (fun x : Vec => x 0%nat * x 1%nat + 2) = [0 * 0 + 2; 1 * 0 + 2; 0 * 1 + 2; 1 * 1 + 2] /\
  nth 3 (q1_values 2 (fun _ => 1 / 2)) 0 = 1 / 4 /\ nth 1 (q1_jacobians 2 (fun _ => 1 / 2)) vzero 1%nat = - (1 / 2) /\
  p1_values 2 (fun k => if Nat.eqb k 0 then 1 / 2 else 1 / 4) = [1 - 1 / 2 - 1 / 4; 1 / 2; 1 / 4].
Proof.
  split; [reflexivity|]. split; [cbn; unfold q1_factor; cbn; lra|]. split; [cbn; unfold q1_factor; cbn; lra|].
  unfold p1_values, entries. cbn [seq map forN Nat.add]. unfold upd. cbn. reflexivity.
Qed.
