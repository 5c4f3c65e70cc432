(** The bases P1 and Q1: values, derivatives, and the shape functions of the multilinear map. *)
From Coq Require Import PeanoNat NArith ZArith Bool List Reals Lia Lra.
From Verif Require Import M_Type M_RefTopo M_RefGeo M_Matrix M_Affine M_MultiLinear M_GaussNewton M_LocalFE
  S_Topo S_RefGeo S_Matrix S_MultiLinear S_GaussNewton S_Agree P_Type P_Topo P_RefTopo P_RefTopo3 P_RSum P_RefGeo P_RefGeo2 P_Matrix P_ML1 P_ML2 P_ML3 P_GaussNewton.
Import ListNotations.
Local Open Scope R_scope.

Lemma entries_length {A} n (f : nat -> A) : length (entries n f) = n.
Proof. unfold entries. now rewrite map_length, seq_length. Qed.
Lemma entries_nth {A} n (f : nat -> A) d i : (i < n)%nat -> nth i (entries n f) d = f i.
Proof.
  intro Hi. unfold entries. rewrite (nth_indep _ d (f 0%nat)) by now rewrite map_length, seq_length.
  now rewrite map_nth, seq_nth.
Qed.
Lemma entries_nth_error {A} n (f : nat -> A) i : (i < n)%nat -> nth_error (entries n f) i = Some (f i).
Proof. intro Hi. rewrite (nth_error_nth' _ (f i)) by now rewrite entries_length. now rewrite entries_nth. Qed.

(** ** P1 *)
Lemma p1_state dim x : forall n, (n <= dim)%nat ->
  let out := forN n (fun i out => upd (upd out 0 (out 0%nat - x i)) (i + 1) (x i)) (upd vzero 0 1) in
  out 0%nat = 1 - rsum n x /\ forall i, (i < n)%nat -> out (S i) = x i.
Proof.
  induction n as [|n IH]; intros Hn; cbn [forN rsum].
  - split; [unfold upd; cbn; lra|intros; lia].
  - destruct (IH ltac:(lia)) as [A B]. set (out := forN n _ _) in *. unfold upd. split.
    + replace (Nat.eqb 0 (n + 1)) with false by (symmetry; apply Nat.eqb_neq; lia). cbn [Nat.eqb]. rewrite A. ring.
    + intros i Hi. destruct (Nat.eqb_spec (S i) (n + 1)).
      * f_equal. lia.
      * cbn [Nat.eqb]. apply B. lia.
Qed.
Lemma p1_length dim x : length (p1_values dim x) = S dim /\ length (p1_jacobians dim x) = S dim.
Proof. unfold p1_values, p1_jacobians. rewrite !entries_length. lia. Qed.
Lemma p1_0 dim x : nth 0 (p1_values dim x) 0 = 1 - rsum dim x.
Proof. unfold p1_values. rewrite entries_nth by lia. exact (proj1 (p1_state dim x dim (le_n _))). Qed.
Lemma p1_S dim x i : (i < dim)%nat -> nth (S i) (p1_values dim x) 0 = x i.
Proof. intro Hi. unfold p1_values. rewrite entries_nth by lia. now apply (proj2 (p1_state dim x dim (le_n _))). Qed.

Lemma row_loop n r (f : nat -> R) (out : Mat) a j :
  forN n (fun j out => mupd out r j (f j)) out a j = if Nat.eqb a r && Nat.ltb j n then f j else out a j.
Proof.
  induction n as [|n IH]; cbn [forN].
  - replace (Nat.ltb j 0) with false by (symmetry; apply Nat.ltb_ge; lia). now rewrite andb_false_r.
  - match goal with |- mupd ?o _ _ _ _ _ = _ => set (M := o) in * end. unfold mupd, upd. destruct (Nat.eqb a r) eqn:E; cbn [andb] in *; [|exact IH]. rewrite IH.
    destruct (Nat.eqb_spec j n) as [->|].
    + now rewrite (proj2 (Nat.ltb_lt n (S n))) by lia.
    + destruct (Nat.ltb_spec j n), (Nat.ltb_spec j (S n)); try lia; reflexivity.
Qed.
Lemma p1_jac_0 dim x j : (j < dim)%nat -> nth 0 (p1_jacobians dim x) vzero j = -1.
Proof.
  intro Hj. unfold p1_jacobians. rewrite entries_nth by lia.
  assert (K : forall n, (n <= dim)%nat ->
    forN n (fun i out => forN dim (fun j out => mupd out (i + 1) j (if Nat.eqb i j then 1 else 0)) out)
       (forN dim (fun j out => mupd out 0 j (-1)) mzero) 0%nat j = -1).
  { induction n as [|n IH]; intro Hn; cbn [forN].
    - rewrite row_loop. cbn [Nat.eqb andb]. now rewrite (proj2 (Nat.ltb_lt j dim)).
    - rewrite row_loop. replace (Nat.eqb 0 (n + 1)) with false by (symmetry; apply Nat.eqb_neq; lia). cbn [andb]. apply IH. lia. }
  now apply K.
Qed.
Lemma p1_jac_S dim x i j : (i < dim)%nat -> (j < dim)%nat -> nth (S i) (p1_jacobians dim x) vzero j = if Nat.eqb i j then 1 else 0.
Proof.
  intros Hi Hj. unfold p1_jacobians. rewrite entries_nth by lia.
  assert (K : forall n, (n <= dim)%nat -> (i < n)%nat ->
    forN n (fun i out => forN dim (fun j out => mupd out (i + 1) j (if Nat.eqb i j then 1 else 0)) out)
       (forN dim (fun j out => mupd out 0 j (-1)) mzero) (S i) j = if Nat.eqb i j then 1 else 0).
  { induction n as [|n IH]; intros Hn Hin; [lia|]. cbn [forN]. rewrite row_loop. rewrite (proj2 (Nat.ltb_lt j dim)) by assumption. rewrite andb_true_r.
    destruct (Nat.eqb_spec (S i) (n + 1)).
    - now replace n with i by lia.
    - apply IH; lia. }
  apply K; lia.
Qed.

(** ** Q1 *)
Definition q1p (x : Vec) (i n : nat) : R := forN n (fun j out => out * q1_factor x i j) 1.
Definition q1d (x : Vec) (i n j : nat) : R :=
  forN n (fun l o => if negb (Nat.eqb j l) then o * q1_factor x i l else o) (if Nat.testbit i j then 1 else -1).
Lemma q1_length dim x : length (q1_values dim x) = (2 ^ dim)%nat /\ length (q1_jacobians dim x) = (2 ^ dim)%nat.
Proof. unfold q1_values, q1_jacobians. rewrite !entries_length. auto. Qed.
Lemma q1_nth dim x i : (i < 2 ^ dim)%nat -> nth i (q1_values dim x) 0 = q1p x i dim.
Proof. intro Hi. unfold q1_values. now rewrite entries_nth. Qed.
Lemma vec_loop n (f : nat -> R) (v : Vec) j : forN n (fun j out => upd out j (f j)) v j = if Nat.ltb j n then f j else v j.
Proof.
  induction n as [|n IH]; cbn [forN]; [reflexivity|]. unfold upd at 1. rewrite IH. destruct (Nat.eqb_spec j n) as [->|].
  - now rewrite (proj2 (Nat.ltb_lt n (S n))) by lia.
  - destruct (Nat.ltb_spec j n), (Nat.ltb_spec j (S n)); try lia; reflexivity.
Qed.
Lemma q1_jac dim x i j : (i < 2 ^ dim)%nat -> (j < dim)%nat -> nth i (q1_jacobians dim x) vzero j = q1d x i dim j.
Proof. intros Hi Hj. unfold q1_jacobians. rewrite entries_nth by assumption. rewrite vec_loop. now rewrite (proj2 (Nat.ltb_lt j dim)). Qed.
Lemma q1d_out x i j : forall n, (n <= j)%nat -> q1d x i n j = (if Nat.testbit i j then 1 else -1) * q1p x i n.
Proof.
  unfold q1d, q1p. induction n as [|n IH]; intro Hn; cbn [forN]; [ring|].
  replace (Nat.eqb j n) with false by (symmetry; apply Nat.eqb_neq; lia). cbn [negb]. rewrite IH by lia. ring.
Qed.
Lemma q1p_S x i n : q1p x i (S n) = q1p x i n * q1_factor x i n.
Proof. reflexivity. Qed.
Lemma q1d_S x i n j : (j < n)%nat -> q1d x i (S n) j = q1d x i n j * q1_factor x i n.
Proof. intro H. unfold q1d. cbn [forN]. replace (Nat.eqb j n) with false by (symmetry; apply Nat.eqb_neq; lia). reflexivity. Qed.
Lemma q1d_last x i n : q1d x i (S n) n = (if Nat.testbit i n then 1 else -1) * q1p x i n.
Proof. transitivity (q1d x i n n); [unfold q1d; cbn [forN]; now rewrite Nat.eqb_refl|]. apply q1d_out. lia. Qed.

(** bits of i and of i - 2^d below d *)
Lemma testbit_low d i k : (k < d)%nat -> Nat.testbit (i + 2 ^ d) k = Nat.testbit i k.
Proof.
  intro Hk. rewrite !Nat.testbit_eqb.
  replace (i + 2 ^ d)%nat with (i + (2 ^ (d - k)) * 2 ^ k)%nat by (rewrite <- Nat.pow_add_r; do 2 f_equal; lia).
  rewrite Nat.div_add by (apply Nat.pow_nonzero; lia). replace (d - k)%nat with (S (d - k - 1)) by lia. cbn [Nat.pow].
  f_equal. rewrite <- (Nat.mod_add (i / 2 ^ k) (2 ^ (d - k - 1)) 2) by lia. f_equal. lia.
Qed.
Lemma testbit_high d i : (i < 2 ^ d)%nat -> Nat.testbit i d = false /\ Nat.testbit (i + 2 ^ d) d = true.
Proof.
  intro Hi. rewrite !Nat.testbit_eqb. rewrite Nat.div_small by assumption. split; [reflexivity|].
  replace (i + 2 ^ d)%nat with (i + 1 * 2 ^ d)%nat by lia. rewrite Nat.div_add by (apply Nat.pow_nonzero; lia). now rewrite Nat.div_small.
Qed.
Lemma q1p_low x d i n : (n <= d)%nat -> q1p x (i + 2 ^ d) n = q1p x i n.
Proof.
  induction n as [|n IH]; intro Hn; [reflexivity|]. rewrite !q1p_S, IH by lia. f_equal. unfold q1_factor. now rewrite testbit_low by lia.
Qed.
Lemma q1d_low x d i n j : (n <= d)%nat -> (j < d)%nat -> q1d x (i + 2 ^ d) n j = q1d x i n j.
Proof.
  intros Hn Hj. unfold q1d. rewrite testbit_low by assumption. apply forN_ext. intros k s Hk. unfold q1_factor. now rewrite testbit_low by lia.
Qed.

Lemma cub_nv T : cubT T -> nv T = (2 ^ tdim T)%nat.
Proof. intro H. rewrite <- nv_verts. now apply cubT_verts_length. Qed.

(** the cube topologies the code works with: prisms all the way down *)
Fixpoint prisms (T : Topo) : Prop := match T with Pt => True | Pri b => prisms b | Pyr _ => False end.
Lemma prisms_nv T : prisms T -> nv T = (2 ^ tdim T)%nat.
Proof. induction T; cbn [prisms nv tdim Nat.pow]; intro H; [reflexivity| |contradiction]. rewrite IHT by assumption. lia. Qed.
Lemma shapeC_q1 tol T : prisms T -> forall x i, (i < nv T)%nat -> shapeC tol T x i = q1p x i (tdim T).
Proof.
  induction T as [|b IH|b IH]; intros H x i Hi; cbn [prisms] in H; [reflexivity| |contradiction].
  cbn [shapeC tdim nv] in *. rewrite (prisms_nv b H) in *. rewrite q1p_S. destruct (Nat.ltb_spec i (2 ^ tdim b)).
  - rewrite IH by (auto; rewrite prisms_nv; auto). unfold q1_factor. rewrite (proj1 (testbit_high _ _ H0)). ring.
  - set (i' := (i - 2 ^ tdim b)%nat) in *. assert (Hi' : (i' < 2 ^ tdim b)%nat) by (unfold i'; lia).
    rewrite IH by (auto; rewrite prisms_nv; auto). replace i with (i' + 2 ^ tdim b)%nat by (unfold i'; lia).
    rewrite q1p_low by lia. unfold q1_factor. rewrite (proj2 (testbit_high _ _ Hi')). ring.
Qed.
Lemma dshapeC_q1 tol T : prisms T -> forall x i j, (i < nv T)%nat -> (j < tdim T)%nat -> dshapeC tol T x j i = q1d x i (tdim T) j.
Proof.
  induction T as [|b IH|b IH]; intros H x i j Hi Hj; cbn [prisms] in H; [cbn [tdim] in Hj; lia| |contradiction].
  cbn [dshapeC tdim nv] in *. assert (NV := prisms_nv b H). destruct (Nat.ltb_spec j (tdim b)).
  - rewrite q1d_S by assumption. destruct (Nat.ltb_spec i (nv b)).
    + rewrite IH by auto. rewrite NV in *. unfold q1_factor. rewrite (proj1 (testbit_high _ _ H1)). ring.
    + rewrite NV in *. set (i' := (i - 2 ^ tdim b)%nat) in *. assert (Hi' : (i' < 2 ^ tdim b)%nat) by (unfold i'; lia).
      rewrite IH by (auto; lia). replace i with (i' + 2 ^ tdim b)%nat by (unfold i'; lia).
      rewrite q1d_low by lia. unfold q1_factor. rewrite (proj2 (testbit_high _ _ Hi')). ring.
  - replace j with (tdim b) by lia. rewrite q1d_last. destruct (Nat.ltb_spec i (nv b)).
    + rewrite shapeC_q1 by auto. rewrite NV in *. rewrite (proj1 (testbit_high _ _ H1)). ring.
    + rewrite NV in *. set (i' := (i - 2 ^ tdim b)%nat) in *. assert (Hi' : (i' < 2 ^ tdim b)%nat) by (unfold i'; lia).
      rewrite shapeC_q1 by (auto; lia). replace i with (i' + 2 ^ tdim b)%nat by (unfold i'; lia).
      rewrite q1p_low by lia. rewrite (proj2 (testbit_high _ _ Hi')). ring.
Qed.

(** ** derivatives *)
Lemma frechet_mul m (a b : Vec -> R) p (da db : Vec) :
  frechet m 1 (fun x => Some (fun _ => a x)) p (fun _ => da) -> frechet m 1 (fun x => Some (fun _ => b x)) p (fun _ => db) ->
  frechet m 1 (fun x => Some (fun _ => a x * b x)) p (fun _ j => da j * b p + a p * db j).
Proof.
  intros (A0 & EA & KA) (B0 & EB & KB). injection EA as <-. injection EB as <-.
  set (G := fun x => Some (fun k => if Nat.eqb k 0 then a x else b x)).
  assert (FG : frechet m 2 G p (fun k => if Nat.eqb k 0 then da else db)).
  { eexists. split; [reflexivity|]. intros eps He. destruct (KA eps He) as (d1 & P1 & K1). destruct (KB eps He) as (d2 & P2 & K2).
    exists (Rmin d1 d2). split; [now apply Rmin_glb_lt|]. intros h H0 Hh. eexists. split; [reflexivity|]. intros k Hk. cbv beta.
    destruct (Nat.eqb_spec k 0).
    - destruct (K1 h H0) as (Fq & EQ & V); [intros j Hj; eapply Rlt_le_trans; [now apply Hh|apply Rmin_l]|]. injection EQ as <-. exact (V 0%nat ltac:(lia)).
    - destruct (K2 h H0) as (Fq & EQ & V); [intros j Hj; eapply Rlt_le_trans; [now apply Hh|apply Rmin_r]|]. injection EQ as <-. exact (V 0%nat ltac:(lia)). }
  set (F := fun (u : Vec) (_ : nat) => u 0%nat * u 1%nat).
  assert (FF : frechet 2 1 (fun u => Some (F u)) (fun k => if Nat.eqb k 0 then a p else b p) (fun _ k => if Nat.eqb k 0 then b p else a p)).
  { eexists. split; [reflexivity|]. intros eps He. exists eps. split; [exact He|]. intros h H0 Hh. eexists. split; [reflexivity|]. intros k Hk.
    unfold F. cbn [rsum Nat.eqb].
    match goal with |- Rabs ?z <= _ => replace z with (h 0%nat * h 1%nat) by ring end.
    rewrite Rabs_mult. assert (Q0 := Hh 0%nat ltac:(lia)). assert (Q1 := Hh 1%nat ltac:(lia)). assert (R0 := Rabs_pos (h 0%nat)). assert (R1 := Rabs_pos (h 1%nat)). nra. }
  assert (C := chain m 2 1 G F p _ _ _ FG eq_refl FF). 
  apply (frechet_meq m 1 _ p _ (fun _ j => da j * b p + a p * db j)) in C.
  - exact C.
  - intros k j Hk Hj. unfold mmul. cbn [rsum Nat.eqb]. ring.
  - intros u v E k Hk. unfold F. now rewrite !E by lia.
Qed.
Lemma frechet_factor m p i n : (n < m)%nat ->
  frechet m 1 (fun x => Some (fun _ => q1_factor x i n)) p (fun _ j => if Nat.eqb j n then if Nat.testbit i n then 1 else -1 else 0).
Proof.
  intro Hn. set (s := if Nat.testbit i n then 1 else -1).
  eexists. split; [reflexivity|]. intros eps He. exists 1. split; [lra|]. intros h H0 _. eexists. split; [reflexivity|]. intros k Hk. cbv beta.
  rewrite (rsum_ext m _ (fun j => if Nat.eqb j n then s * h j else 0)) by (intros j Hj; destruct (Nat.eqb j n); ring).
  rewrite rsum_delta by assumption. unfold q1_factor.
  match goal with |- Rabs ?z <= _ => replace z with 0 by (unfold s; destruct (Nat.testbit i n); ring) end.
  rewrite Rabs_R0. apply Rmult_le_pos; [lra|]. apply rsum_nonneg. intros; apply Rabs_pos.
Qed.
Lemma frechet_q1 m p i : forall n, (n <= m)%nat ->
  frechet m 1 (fun x => Some (fun _ => q1p x i n)) p (fun _ j => if Nat.ltb j n then q1d p i n j else 0).
Proof.
  induction n as [|n IH]; intro Hn.
  - unfold q1p. cbn [forN].
    eexists. split; [reflexivity|]. intros eps He. exists 1. split; [lra|]. intros h H0 _. eexists. split; [reflexivity|]. intros k Hk. cbv beta.
    rewrite rsum_0 by (intros j Hj; cbn; ring).
    replace (1 - 1 - 0) with 0 by ring. rewrite Rabs_R0. apply Rmult_le_pos; [lra|]. apply rsum_nonneg. intros; apply Rabs_pos.
  - assert (Q := frechet_mul m _ _ p _ _ (IH ltac:(lia)) (frechet_factor m p i n ltac:(lia))).
    refine (frechet_meq m 1 _ p _ _ _ Q). intros k j Hk Hj. cbv beta.
    destruct (Nat.ltb_spec j n), (Nat.ltb_spec j (S n)); try lia.
    + rewrite q1d_S by assumption. replace (Nat.eqb j n) with false by (symmetry; apply Nat.eqb_neq; lia). ring.
    + replace j with n by lia. rewrite Nat.eqb_refl, q1d_last. ring.
    + replace (Nat.eqb j n) with false by (symmetry; apply Nat.eqb_neq; lia). ring.
Qed.
