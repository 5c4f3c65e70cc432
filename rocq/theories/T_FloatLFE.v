(** * C102  LocalFiniteElementGeometry and the numerical volume in IEEE arithmetic *)
From Coq Require Import PeanoNat NArith ZArith Bool List Reals Lra Lia.
From Flocq Require Import Core IEEE754.BinarySingleNaN.
From Verif Require Import M_RefTopo M_Matrix M_LocalFE M_Float M_FloatGlobal M_FloatLocal M_FloatLFE S_RefGeo S_FloatMat P_Float P_Float2 P_FloatErr P_FloatRef P_FloatGlobal P_FloatMat2 P_FloatMat3 P_FloatMat4
  T_Float T_FloatGlobal T_FloatLocal.
Import ListNotations.
Local Open Scope R_scope.

Section T.
Variables (prec emax : Z).
Context (Hp : Prec_gt_0 prec) (He : Prec_lt_emax prec emax).
Notation float := (binary_float prec emax).
Notation FVec := (nat -> float).
Notation u := (uro prec).
Notation eta := (tiny prec emax).
Notation grow := (grow prec).
Notation gam := (gam prec).
Notation fin := (@is_finite prec emax).
Notation val := (@B2R prec emax).
Notation add := (fadd prec emax Hp He).
Notation sub := (fsub prec emax Hp He).
Notation mul := (fmul prec emax Hp He).
Notation one := (ofZ prec emax Hp He 1).
Notation zero := (B754_zero false : float).
Notation fzeros := (fun _ : nat => zero).
Notation rnd := (round radix2 (SpecFloat.fexp prec emax) (round_mode mode_NE)).

(** ** global and jacobian for every basis *)
Lemma lf_at cdim (sv : list float) (vs : list FVec) k n : (k < cdim)%nat ->
  forN n (fun i out => faxpy prec emax Hp He cdim (nth i sv zero) (nth i vs fzeros) out) fzeros k = forN n (fun i s => add s (mul (nth i sv zero) (nth i vs fzeros k))) zero.
Proof.
  intro Hk. induction n as [|n IH]; [reflexivity|]. cbn [forN]. rewrite <- IH. unfold faxpy at 1. destruct (Nat.ltb_spec k cdim); [reflexivity|lia].
Qed.
Lemma rows_at cdim mydim (c : nat -> nat -> float) m (out : nat -> nat -> float) : (m <= cdim)%nat -> forall j l, (l < mydim)%nat ->
  forN m (fun j out => fmrow prec emax out j (fset prec emax mydim (fun l => add (out j l) (c j l)) (out j))) out j l = if Nat.ltb j m then add (out j l) (c j l) else out j l.
Proof.
  intros Hm j l Hl. induction m as [|m IH]; [reflexivity|]. cbn [forN]. unfold fmrow at 1. destruct (Nat.eqb_spec j m) as [->|N].
  - rewrite (fset_in prec emax mydim) by exact Hl. rewrite IH by lia. destruct (Nat.ltb_spec m m); [lia|]. destruct (Nat.ltb_spec m (S m)); [reflexivity|lia].
  - rewrite IH by lia. destruct (Nat.ltb_spec j m), (Nat.ltb_spec j (S m)); try lia; reflexivity.
Qed.
Lemma lfj_at cdim mydim (sj vs : list FVec) j l n : (j < cdim)%nat -> (l < mydim)%nat ->
  forN n (fun i out => forN cdim (fun j out => fmrow prec emax out j (fset prec emax mydim (fun l => add (out j l) (mul (nth i sj fzeros l) (nth i vs fzeros j))) (out j))) out) (fun _ => fzeros) j l
  = forN n (fun i s => add s (mul (nth i sj fzeros l) (nth i vs fzeros j))) zero.
Proof.
  intros Hj Hl. induction n as [|n IH]; [reflexivity|]. cbn [forN]. rewrite <- IH.
  rewrite (rows_at cdim mydim (fun j l => mul (nth n sj fzeros l) (nth n vs fzeros j)) cdim _ (le_n _) j l Hl). destruct (Nat.ltb_spec j cdim); [reflexivity|lia].
Qed.

(** The image of a point is the combination of the vertices with the values of the shape functions, up to one relative error more than there are shape functions, for every basis; finite results
    have finite data.  The same holds for the entries of the Jacobian.  The call fails exactly if the numbers of shape functions and vertices differ. *)
Theorem C102_combination :
  (forall cdim sv vs, (flf_global prec emax Hp He cdim sv vs = None <-> length sv <> length vs) /\
   forall out k, flf_global prec emax Hp He cdim sv vs = Some out -> (k < cdim)%nat -> fin (out k) = true ->
     let n := length vs in let a := fun i => val (nth i sv zero) in let b := fun i => val (nth i vs fzeros k) in
     (forall i, (i < n)%nat -> fin (nth i sv zero) = true /\ fin (nth i vs fzeros k) = true) /\
     Rabs (val (out k) - rdot n a b) <= gam (S n) * adot n a b + grow n * INR n * eta) /\
  (forall cdim mydim sj vs, (flf_jacobian prec emax Hp He cdim mydim sj vs = None <-> length sj <> length vs) /\
   forall J j l, flf_jacobian prec emax Hp He cdim mydim sj vs = Some J -> (j < cdim)%nat -> (l < mydim)%nat -> fin (J j l) = true ->
     let n := length vs in let a := fun i => val (nth i sj fzeros l) in let b := fun i => val (nth i vs fzeros j) in
     (forall i, (i < n)%nat -> fin (nth i sj fzeros l) = true /\ fin (nth i vs fzeros j) = true) /\
     Rabs (val (J j l) - rdot n a b) <= gam (S n) * adot n a b + grow n * INR n * eta).
Proof.
  split; intros.
  - unfold flf_global. destruct (Nat.eqb_spec (length sv) (length vs)) as [E|E]; (split; [split; [intro X; try discriminate X|]; now auto|]); [|discriminate].
    intros out k X Hk F. injection X as <-. rewrite lf_at in F |- * by exact Hk. rewrite E in F |- *.
    exact (dot_err prec emax Hp He (fun i => nth i sv zero) (fun i => nth i vs fzeros k) (length vs) F).
  - unfold flf_jacobian. destruct (Nat.eqb_spec (length sj) (length vs)) as [E|E]; (split; [split; [intro X; try discriminate X|]; now auto|]); [|discriminate].
    intros J j l X Hj Hl F. injection X as <-. rewrite lfj_at in F |- * by assumption. rewrite E in F |- *.
    exact (dot_err prec emax Hp He (fun i => nth i sj fzeros l) (fun i => nth i vs fzeros j) (length vs) F).
Qed.

(** ** at the corners *)
Lemma mul_exact a b : fin a = true -> fin b = true -> generic_format radix2 (SpecFloat.fexp prec emax) (val a * val b) -> Rabs (val a * val b) < bpow radix2 emax ->
  fin (mul a b) = true /\ val (mul a b) = val a * val b.
Proof.
  intros Fa Fb G B. pose proof (Bmult_correct prec emax Hp He mode_NE a b) as C. rewrite round_generic in C by (try typeclasses eauto; exact G). rewrite Rlt_bool_true in C by exact B.
  destruct C as (C1 & C2 & _). rewrite Fa, Fb in C2. split; assumption.
Qed.
Lemma add_exact a b : fin a = true -> fin b = true -> generic_format radix2 (SpecFloat.fexp prec emax) (val a + val b) -> Rabs (val a + val b) < bpow radix2 emax ->
  fin (add a b) = true /\ val (add a b) = val a + val b.
Proof.
  intros Fa Fb G B. pose proof (Bplus_correct prec emax Hp He mode_NE a b Fa Fb) as C. rewrite round_generic in C by (try typeclasses eauto; exact G). rewrite Rlt_bool_true in C by exact B.
  destruct C as (C1 & C2 & _). split; assumption.
Qed.
Lemma sub_exact a b : fin a = true -> fin b = true -> generic_format radix2 (SpecFloat.fexp prec emax) (val a - val b) -> Rabs (val a - val b) < bpow radix2 emax ->
  fin (sub a b) = true /\ val (sub a b) = val a - val b.
Proof.
  intros Fa Fb G B. pose proof (Bminus_correct prec emax Hp He mode_NE a b Fa Fb) as C. rewrite round_generic in C by (try typeclasses eauto; exact G). rewrite Rlt_bool_true in C by exact B.
  destruct C as (C1 & C2 & _). split; assumption.
Qed.
Lemma fmt (a : float) : generic_format radix2 (SpecFloat.fexp prec emax) (val a) /\ Rabs (val a) < bpow radix2 emax.
Proof. split; [apply generic_format_B2R|apply abs_B2R_lt_emax]. Qed.
Lemma fmt0 : generic_format radix2 (SpecFloat.fexp prec emax) 0 /\ Rabs 0 < bpow radix2 emax.
Proof. split; [apply generic_format_0|rewrite Rabs_R0; apply bpow_gt_0]. Qed.
Lemma select (l r : nat -> float) p n : (forall i, (i < n)%nat -> fin (l i) = true /\ val (l i) = (if Nat.eqb i p then 1 else 0) /\ fin (r i) = true) ->
  fin (forN n (fun i s => add s (mul (l i) (r i))) zero) = true /\ val (forN n (fun i s => add s (mul (l i) (r i))) zero) = if Nat.ltb p n then val (r p) else 0.
Proof.
  induction n as [|n IH]; intro H; [split; reflexivity|]. cbn [forN]. destruct (IH ltac:(intros; apply H; lia)) as (F & V). set (s := forN n _ _) in *. clearbody s.
  destruct (H n ltac:(lia)) as (Fl & Vl & Fr). destruct (fmt (r n)) as (G1 & G2). destruct fmt0 as (Z1 & Z2).
  destruct (Nat.eqb_spec n p) as [->|N].
  - destruct (mul_exact (l p) (r p) Fl Fr) as (M1 & M2); [now rewrite Vl, Rmult_1_l|now rewrite Vl, Rmult_1_l|]. rewrite Vl, Rmult_1_l in M2.
    destruct (Nat.ltb_spec p p); [lia|]. destruct (add_exact s _ F M1) as (A1 & A2); [now rewrite V, M2, Rplus_0_l|now rewrite V, M2, Rplus_0_l|].
    split; [exact A1|]. rewrite A2, V, M2. destruct (Nat.ltb_spec p (S p)); [ring|lia].
  - destruct (mul_exact (l n) (r n) Fl Fr) as (M1 & M2); [now rewrite Vl, Rmult_0_l|now rewrite Vl, Rmult_0_l|]. rewrite Vl, Rmult_0_l in M2.
    destruct (fmt s) as (S1 & S2). destruct (add_exact s _ F M1) as (A1 & A2); [now rewrite M2, Rplus_0_r|now rewrite M2, Rplus_0_r|].
    split; [exact A1|]. rewrite A2, M2, Rplus_0_r, V. destruct (Nat.ltb_spec p n), (Nat.ltb_spec p (S n)); try lia; reflexivity.
Qed.
Lemma entries_nth {A} n (f : nat -> A) i d : (i < n)%nat -> nth i (entries n f) d = f i.
Proof. intro H. unfold entries. rewrite (nth_indep _ d (f 0%nat)) by (rewrite map_length, seq_length; exact H). rewrite map_nth. now rewrite seq_nth. Qed.
Lemma entries_len {A} n (f : nat -> A) : length (entries n f) = n. Proof. unfold entries. now rewrite map_length, seq_length. Qed.
Lemma global_select cdim sv vs p : length sv = length vs -> (p < length vs)%nat ->
  (forall i, (i < length vs)%nat -> fin (nth i sv zero) = true /\ val (nth i sv zero) = if Nat.eqb i p then 1 else 0) ->
  (forall v k, In v vs -> (k < cdim)%nat -> fin (v k) = true) ->
  exists out, flf_global prec emax Hp He cdim sv vs = Some out /\ forall k, (k < cdim)%nat -> fin (out k) = true /\ val (out k) = val (nth p vs fzeros k).
Proof.
  intros E Hpn H Hv. unfold flf_global. rewrite E, Nat.eqb_refl. eexists. split; [reflexivity|]. intros k Hk. rewrite lf_at by exact Hk.
  destruct (select (fun i => nth i sv zero) (fun i => nth i vs fzeros k) p (length vs)) as (F & V).
  - intros i Hi. destruct (H i Hi) as (F & V). split; [exact F|]. split; [exact V|]. apply Hv; [now apply nth_In|exact Hk].
  - split; [exact F|]. rewrite V. destruct (Nat.ltb_spec p (length vs)); [reflexivity|lia].
Qed.

(** *** simplices *)
Lemma p1_at dim x : forall n, (n <= dim)%nat -> let out := forN n (fun i out => fupd prec emax (fupd prec emax out 0 (sub (out 0%nat) (x i))) (S i) (x i)) (fupd prec emax fzeros 0 one) in
  out 0%nat = forN n (fun i s => sub s (x i)) one /\ forall i, (i < n)%nat -> out (S i) = x i.
Proof.
  induction n as [|n IH]; intros Hn; [split; [reflexivity|intros; lia]|]. destruct (IH ltac:(lia)) as (A & B). cbv zeta in *. cbn [forN]. set (o := forN n _ (fupd prec emax fzeros 0 one)) in *. split.
  - unfold fupd at 1. cbn [Nat.eqb]. unfold fupd at 1. rewrite Nat.eqb_refl. now rewrite A.
  - intros i Hi. unfold fupd at 1. destruct (Nat.eqb_spec (S i) (S n)) as [E|N]; [now injection E as ->|]. unfold fupd at 1. cbn [Nat.eqb]. apply B. lia.
Qed.
Lemma p1_nth dim x : nth 0 (fp1_values prec emax Hp He dim x) zero = forN dim (fun i s => sub s (x i)) one /\
  forall i, (i < dim)%nat -> nth (S i) (fp1_values prec emax Hp He dim x) zero = x i.
Proof.
  unfold fp1_values. destruct (p1_at dim x dim (le_n _)) as (A & B). split; [rewrite entries_nth by lia; exact A|]. intros i Hi. rewrite entries_nth by lia. now apply B.
Qed.
(** With the shape functions of order one on the simplex the vertices are taken on without error at the corners: vertex 0 at the origin, vertex i+1 at the i-th unit vector. *)
Theorem C102_p1_corners : (2 <= prec)%Z -> forall dim cdim vs x p, length vs = S dim -> (p <= dim)%nat ->
  (forall v k, In v vs -> (k < cdim)%nat -> fin (v k) = true) ->
  (forall j, (j < dim)%nat -> fin (x j) = true /\ val (x j) = if Nat.eqb (S j) p then 1 else 0) ->
  exists out, flf_global prec emax Hp He cdim (fp1_values prec emax Hp He dim x) vs = Some out /\ forall k, (k < cdim)%nat -> fin (out k) = true /\ val (out k) = val (nth p vs fzeros k).
Proof.
  intros P2 dim cdim vs x p L Hpd Hv Hx. destruct (ofZ_1 prec emax Hp He P2) as (O1 & O2).
  apply global_select; [unfold fp1_values; rewrite entries_len; now rewrite L|lia| |exact Hv].
  intros i Hi. destruct (p1_nth dim x) as (A & B). destruct i as [|i].
  - rewrite A. assert (G1 : generic_format radix2 (SpecFloat.fexp prec emax) 1) by (rewrite <- O1; apply generic_format_B2R). destruct fmt0 as (Z1 & Z2).
    assert (K : forall n, (n <= dim)%nat -> fin (forN n (fun i s => sub s (x i)) one) = true /\ val (forN n (fun i s => sub s (x i)) one) = if (Nat.eqb p 0 || Nat.ltb n p)%bool then 1 else 0).
    { assert (B1 : Rabs 1 < bpow radix2 emax) by (rewrite <- O1; apply abs_B2R_lt_emax).
      induction n as [|n IH]; intro Hn; [split; [exact O2|]; cbn [forN]; rewrite O1; destruct p; reflexivity|]. cbn [forN]. destruct (IH ltac:(lia)) as (F & V). set (s := forN n _ _) in *. clearbody s.
      destruct (Hx n ltac:(lia)) as (Fx & Vx). assert (Q : val s - val (x n) = if (Nat.eqb p 0 || Nat.ltb (S n) p)%bool then 1 else 0).
      { rewrite V, Vx. destruct (Nat.eqb_spec p 0), (Nat.ltb_spec n p), (Nat.ltb_spec (S n) p), (Nat.eqb_spec (S n) p); cbn [orb]; try lia; ring. }
      destruct (sub_exact s (x n) F Fx) as (S1 & S2); rewrite ?Q; [destruct (Nat.eqb p 0 || Nat.ltb (S n) p)%bool; assumption..|]. split; [exact S1|]. now rewrite S2, Q. }
    destruct (K dim (le_n _)) as (F & V). split; [exact F|]. rewrite V. destruct (Nat.eqb_spec p 0) as [->|N]; cbn [orb]; [reflexivity|].
    destruct (Nat.ltb_spec dim p); [lia|]. destruct (Nat.eqb_spec 0 p); [lia|reflexivity].
  - rewrite B by lia. apply Hx. lia.
Qed.
(** *** cubes *)
Theorem C102_q1_corners : (2 <= prec)%Z -> forall dim cdim vs x p, length vs = (2 ^ dim)%nat -> (p < 2 ^ dim)%nat ->
  (forall v k, In v vs -> (k < cdim)%nat -> fin (v k) = true) ->
  (forall j, (j < dim)%nat -> fin (x j) = true /\ val (x j) = if Nat.testbit p j then 1 else 0) ->
  exists out, flf_global prec emax Hp He cdim (fq1_values prec emax Hp He dim x) vs = Some out /\ forall k, (k < cdim)%nat -> fin (out k) = true /\ val (out k) = val (nth p vs fzeros k).
Proof.
  intros P2 dim cdim vs x p L Hpd Hv Hx. destruct (ofZ_1 prec emax Hp He P2) as (O1 & O2).
  apply global_select; [unfold fq1_values; rewrite entries_len; now rewrite L|lia| |exact Hv].
  intros i Hi. rewrite L in Hi. unfold fq1_values. rewrite entries_nth by exact Hi.
  assert (G1 : generic_format radix2 (SpecFloat.fexp prec emax) 1) by (rewrite <- O1; apply generic_format_B2R). destruct fmt0 as (Z1 & Z2). assert (B1 : Rabs 1 < bpow radix2 emax) by (rewrite <- O1; apply abs_B2R_lt_emax).
  assert (FA : forall j, (j < dim)%nat -> fin (fq1_factor prec emax Hp He x i j) = true /\ val (fq1_factor prec emax Hp He x i j) = if Bool.eqb (Nat.testbit i j) (Nat.testbit p j) then 1 else 0).
  { intros j Hj. destruct (Hx j Hj) as (F & V). unfold fq1_factor. destruct (Nat.testbit i j); [split; [exact F|]; rewrite V; destruct (Nat.testbit p j); reflexivity|].
    assert (Q : val one - val (x j) = if Nat.testbit p j then 0 else 1) by (rewrite O1, V; destruct (Nat.testbit p j); ring).
    destruct (sub_exact one (x j) O2 F) as (S1 & S2); rewrite ?Q; [destruct (Nat.testbit p j); assumption..|]. split; [exact S1|]. rewrite S2, Q. destruct (Nat.testbit p j); reflexivity. }
  assert (K : forall n, (n <= dim)%nat -> fin (forN n (fun j out => mul out (fq1_factor prec emax Hp He x i j)) one) = true /\
     val (forN n (fun j out => mul out (fq1_factor prec emax Hp He x i j)) one) = if forallb (fun j => Bool.eqb (Nat.testbit i j) (Nat.testbit p j)) (seq 0 n) then 1 else 0).
  { induction n as [|n IH]; intro Hn; [split; [exact O2|exact O1]|]. cbn [forN]. destruct (IH ltac:(lia)) as (F & V). set (s := forN n _ _) in *. clearbody s.
    destruct (FA n ltac:(lia)) as (F1 & V1). rewrite seq_S, forallb_app. cbn [forallb Nat.add]. rewrite andb_true_r. set (b := forallb _ _) in *. set (c := Bool.eqb _ _) in *.
    assert (Q : val s * val (fq1_factor prec emax Hp He x i n) = if (b && c)%bool then 1 else 0) by (rewrite V, V1; destruct b, c; cbn; ring).
    destruct (mul_exact s _ F F1) as (S1 & S2); rewrite ?Q; [destruct (b && c)%bool; assumption..|]. split; [exact S1|]. now rewrite S2. }
  destruct (K dim (le_n _)) as (F & V). split; [exact F|]. rewrite V. destruct (Nat.eqb_spec i p) as [->|N].
  - replace (forallb _ _) with true; [reflexivity|]. symmetry. apply forallb_forall. intros j _. apply eqb_reflx.
  - destruct (forallb _ _) eqn:E; [|reflexivity]. exfalso. apply N. apply Nat.bits_inj. intro j. destruct (Nat.lt_ge_cases j dim) as [Hj|Hj].
    + rewrite forallb_forall in E. apply eqb_prop, E. apply in_seq. lia.
    + assert (T : forall m, (m < 2 ^ dim)%nat -> Nat.testbit m j = false).
      { intros m Hm. destruct (Nat.eq_dec m 0) as [->|]; [apply Nat.bits_0|]. apply Nat.bits_above_log2. apply Nat.lt_le_trans with dim; [|exact Hj]. apply Nat.log2_lt_pow2; lia. }
      now rewrite !T.
Qed.

(** ** the numerical volume *)
Definition qsum (mus : list float) (q : list (FVec * float)) (f : R -> R) : R := fold_right (fun mw acc => f (val (fst mw) * val (snd (snd mw))) + acc) 0 (combine mus q).
(** The quadrature sum: the computed integration elements times the weights, up to one relative error more than there are points.  With weights and integration elements that are not negative
    the sum is not negative. *)
Theorem C102_quadrature : forall intel q v, fvolume_sum prec emax Hp He intel q zero = Some v -> fin v = true ->
  exists mus, length mus = length q /\ Forall2 (fun pw m => intel (fst pw) = Some m /\ fin m = true /\ fin (snd pw) = true) q mus /\
    Rabs (val v - qsum mus q (fun t => t)) <= gam (S (length q)) * qsum mus q Rabs + grow (length q) * INR (length q) * eta /\
    ((forall m, In m mus -> 0 <= val m) -> (forall pw, In pw q -> 0 <= val (snd pw)) -> 0 <= val v).
Proof.
  assert (G : forall intel q v0 v, fvolume_sum prec emax Hp He intel q v0 = Some v -> fin v = true -> fin v0 = true /\
    exists mus, length mus = length q /\ Forall2 (fun pw m => intel (fst pw) = Some m /\ fin m = true /\ fin (snd pw) = true) q mus /\
    Rabs (val v - (val v0 + qsum mus q (fun t => t))) <= gam (length q) * Rabs (val v0) + gam (S (length q)) * qsum mus q Rabs + grow (length q) * INR (length q) * eta /\
    0 <= qsum mus q Rabs /\
    ((forall m, In m mus -> 0 <= val m) -> (forall pw, In pw q -> 0 <= val (snd pw)) -> 0 <= val v0 -> 0 <= val v)).
  { intros intel. induction q as [|[x w] q IH]; intros v0 v E F; cbn [fvolume_sum] in E.
    - injection E as <-. split; [exact F|]. exists []. split; [reflexivity|]. split; [constructor|]. unfold qsum. cbn. split; [|split; [lra|auto]].
      rewrite Rplus_0_r. unfold Rminus at 1. rewrite Rplus_opp_r, Rabs_R0. unfold S_FloatMat.gam, S_FloatMat.grow. cbn. lra.
    - destruct (intel x) as [m|] eqn:Ex; cbn [obind] in E; [|discriminate]. destruct (IH _ _ E F) as (F1 & mus & L & A & B & N & C).
      destruct (add_fin prec emax Hp He _ _ F1) as (Fv0 & Fm & V1). destruct (mul_fin prec emax Hp He _ _ Fm) as (F2 & F3 & V2). split; [exact Fv0|].
      exists (m :: mus). split; [cbn; now rewrite L|]. split; [constructor; [repeat split; assumption|exact A]|].
      assert (Q : forall f, qsum (m :: mus) ((x, w) :: q) f = f (val m * val w) + qsum mus q f) by reflexivity. rewrite !Q.
      set (t := val m * val w) in *. set (T := qsum mus q (fun t => t)) in *. set (M := qsum mus q Rabs) in *. set (v1 := add v0 (mul m w)) in *.
      pose proof (u_pos' prec) as U. pose proof (eta_pos' prec emax) as Et. pose proof (gam_pos prec (length q)) as G0. pose proof (grow1 prec (length q)) as G1.
      pose proof (Rabs_pos t) as T0. pose proof (Rabs_pos (val v0)) as W0.
      split; [|split].
      + pose proof (forw_any prec emax Hp t) as P1. change (bpow radix2 (- prec)) with u in P1. change (bpow radix2 (2 - emax - prec)) with eta in P1. rewrite <- V2 in P1.
        destruct (rel_plus prec emax Hp (val v0) (val (mul m w)) (generic_format_B2R _ _ _) (generic_format_B2R _ _ _)) as (e & Ee & R1). rewrite <- V1 in R1. change (bpow radix2 (- prec)) with u in Ee.
        set (h := val (mul m w)) in *. assert (D : Rabs (val v1 - (val v0 + t)) <= u * Rabs (val v0) + ((1 + u) * (1 + u) - 1) * Rabs t + (1 + u) * eta).
        { replace (val v1 - (val v0 + t)) with ((h - t) + e * (val v0 + (h - t) + t)) by (rewrite R1; ring). eapply Rle_trans; [apply Rabs_triang|]. rewrite Rabs_mult.
          assert (Rabs (val v0 + (h - t) + t) <= Rabs (val v0) + (u * Rabs t + eta) + Rabs t) by (eapply Rle_trans; [apply Rabs_triang|]; pose proof (Rabs_triang (val v0) (h - t)); lra).
          assert (Rabs e * Rabs (val v0 + (h - t) + t) <= u * (Rabs (val v0) + (u * Rabs t + eta) + Rabs t)) by (apply Rmult_le_compat; [apply Rabs_pos|apply Rabs_pos|exact Ee|assumption]). lra. }
        assert (V : Rabs (val v1) <= (1 + u) * Rabs (val v0) + (1 + u) * (1 + u) * Rabs t + (1 + u) * eta).
        { replace (val v1) with ((val v1 - (val v0 + t)) + (val v0 + t)) by ring. eapply Rle_trans; [apply Rabs_triang|]. pose proof (Rabs_triang (val v0) t). lra. }
        replace (val v - (val v0 + (t + T))) with ((val v - (val v1 + T)) + (val v1 - (val v0 + t))) by ring. eapply Rle_trans; [apply Rabs_triang|].
        cbn [length]. rewrite S_INR. set (n := length q) in *. set (I := INR n) in *. assert (I0 : 0 <= I) by apply pos_INR.
        unfold S_FloatMat.gam in *. rewrite !growS in *. set (g := grow n) in *.
        assert (Y1 : (g - 1) * Rabs (val v1) <= (g - 1) * ((1 + u) * Rabs (val v0) + (1 + u) * (1 + u) * Rabs t + (1 + u) * eta)) by (apply Rmult_le_compat_l; assumption).
        assert (Y2 : 0 <= u * (1 + u) * g * M) by (repeat apply Rmult_le_pos; lra).
        assert (Y3 : 0 <= u * g * I * eta) by (repeat apply Rmult_le_pos; lra).
        nra.
      + pose proof (Rabs_pos t). lra.
      + intros H1 H2 H3. apply C; [intros; apply H1; now right|intros; apply H2; now right|]. rewrite V1, V2. apply (rnd_nn prec emax Hp). apply Rplus_le_le_0_compat; [exact H3|].
        apply (rnd_nn prec emax Hp). apply Rmult_le_pos; [apply H1; now left|apply (H2 (x, w)); now left]. }
  intros intel q v E F. destruct (G intel q zero v E F) as (_ & mus & L & A & B & _ & C). exists mus. split; [exact L|]. split; [exact A|]. split.
  - change (val zero) with 0 in B. rewrite Rabs_R0, Rmult_0_r, !Rplus_0_l in B. exact B.
  - intros H1 H2. apply C; [exact H1|exact H2|]. change (val zero) with 0. lra.
Qed.

(** ** the loop over the orders: [sum p] is the sum of order p, [close] the test of the loop *)
Section Loop.
Variables (rule : Z -> option (list (FVec * float))) (intel : FVec -> option float) (tol : float).
Definition vsum (p : Z) : option float := obind (rule p) (fun q => fvolume_sum prec emax Hp He intel q zero).
Definition close (p : Z) : Prop := exists v w, vsum (p - 1) = Some v /\ vsum p = Some w /\ Bltb (Babs (sub w v)) tol = true.
Lemma iter_vsum affine maxIt : fvolume_iter prec emax Hp He rule intel affine maxIt tol = obind (vsum 1) (fun v => if affine then Some v else fvolume_loop prec emax Hp He rule intel tol (Z.to_nat (maxIt - 2)) 2 v).
Proof. unfold fvolume_iter, vsum. destruct (rule 1%Z); reflexivity. Qed.
Lemma loop_S n p v : fvolume_loop prec emax Hp He rule intel tol (S n) p v = obind (vsum p) (fun w => if Bltb (Babs (sub w v)) tol then Some w else fvolume_loop prec emax Hp He rule intel tol n (p + 1) w).
Proof. cbn [fvolume_loop]. unfold vsum. destruct (rule p); reflexivity. Qed.
Lemma loop_spec : forall n p v, vsum (p - 1) = Some v ->
  (exists p' w, (p - 1 <= p' <= p - 1 + Z.of_nat n)%Z /\ fvolume_loop prec emax Hp He rule intel tol n p v = Some w /\ vsum p' = Some w /\
     (p' = (p - 1 + Z.of_nat n)%Z \/ (p <= p')%Z /\ close p') /\ forall a, (p <= a < p')%Z -> vsum a <> None /\ ~ close a) \/
  (fvolume_loop prec emax Hp He rule intel tol n p v = None /\ exists p', (p <= p' <= p - 1 + Z.of_nat n)%Z /\ vsum p' = None /\ forall a, (p <= a < p')%Z -> vsum a <> None /\ ~ close a).
Proof.
  induction n as [|n IH]; intros p v E.
  - left. exists (p - 1)%Z, v. split; [lia|]. split; [reflexivity|]. split; [exact E|]. split; [left; lia|]. intros; lia.
  - rewrite loop_S. destruct (vsum p) as [w|] eqn:Ew; cbn [obind].
    + destruct (Bltb (Babs (sub w v)) tol) eqn:B.
      * left. exists p, w. split; [lia|]. split; [reflexivity|]. split; [exact Ew|]. split; [right; split; [lia|]; exists v, w; auto|]. intros; lia.
      * assert (NC : ~ close p) by (intros (v' & w' & E1 & E2 & E3); congruence).
        destruct (IH (p + 1)%Z w) as [(p' & w' & H1 & H2 & H3 & H4 & H5)|(H1 & p' & H2 & H3 & H4)]; [now replace (p + 1 - 1)%Z with p by lia| |].
        -- left. exists p', w'. split; [lia|]. split; [exact H2|]. split; [exact H3|]. split; [destruct H4 as [H4|(H4 & C)]; [left; lia|right; split; [lia|exact C]]|].
           intros a Ha. destruct (Z.eq_dec a p) as [->|]; [split; [congruence|exact NC]|]. destruct (Z.eq_dec p' p); [lia|]. apply H5. lia.
        -- right. split; [exact H1|]. exists p'. split; [lia|]. split; [exact H3|]. intros a Ha. destruct (Z.eq_dec a p) as [->|]; [split; [congruence|exact NC]|]. apply H4. lia.
    + right. split; [reflexivity|]. exists p. split; [lia|]. split; [exact Ew|]. intros; lia.
Qed.
(** The loop returns the sum of some order p up to max(1, maxIt-1): the first one that passes the test, or the last; or it fails at the first order whose sum is missing, if no smaller order passes
    the test.  The sums may be infinite or not a number. *)
Theorem C102_loop : forall maxIt, let top := Z.max 1 (maxIt - 1) in
  (exists p w, (1 <= p <= top)%Z /\ fvolume_iter prec emax Hp He rule intel false maxIt tol = Some w /\ vsum p = Some w /\
     (p = top \/ (2 <= p)%Z /\ close p) /\ forall a, (2 <= a < p)%Z -> vsum a <> None /\ ~ close a) \/
  (fvolume_iter prec emax Hp He rule intel false maxIt tol = None /\ exists p, (1 <= p <= top)%Z /\ vsum p = None /\ forall a, (2 <= a < p)%Z -> vsum a <> None /\ ~ close a).
Proof.
  intros maxIt top. rewrite iter_vsum. destruct (vsum 1) as [v|] eqn:E; cbn [obind].
  - assert (T : (2 - 1 + Z.of_nat (Z.to_nat (maxIt - 2)) = top)%Z) by (unfold top; lia).
    destruct (loop_spec (Z.to_nat (maxIt - 2)) 2 v E) as [(p & w & H1 & H2 & H3 & H4 & H5)|(H1 & p & H2 & H3 & H4)]; rewrite T in *.
    + left. exists p, w. split; [lia|]. auto.
    + right. split; [exact H1|]. exists p. split; [lia|]. auto.
  - right. split; [reflexivity|]. exists 1%Z. split; [unfold top; lia|]. split; [exact E|]. intros; lia.
Qed.
(** If none of the sums is finite, no order passes the test: the loop asks for every order below maxIt, and fails if there are not so many rules. *)
Theorem C102_overflow : forall maxIt, (forall p w, (1 <= p)%Z -> vsum p = Some w -> fin w = false) ->
  let top := Z.max 1 (maxIt - 1) in
  (forall p, ~ close p \/ (p < 2)%Z) /\
  ((forall p, (1 <= p <= top)%Z -> vsum p <> None) -> fvolume_iter prec emax Hp He rule intel false maxIt tol = vsum top) /\
  ((exists p, (1 <= p <= top)%Z /\ vsum p = None) -> fvolume_iter prec emax Hp He rule intel false maxIt tol = None).
Proof.
  intros maxIt H top. assert (N : forall p, (2 <= p)%Z -> ~ close p).
  { intros p Hp2 (v & w & E1 & E2 & B). apply H in E1; [|lia]. apply H in E2; [|lia]. revert B. clear - E1 E2.
    destruct v as [|[]| |], w as [|[]| |]; try discriminate; unfold fsub, Bminus, Babs, Bltb; destruct tol as [|[]| |[]]; cbn; discriminate. }
  split; [intro p; destruct (Z.le_gt_cases 2 p); [left; now apply N|right; lia]|].
  pose proof (C102_loop maxIt) as CL. cbv zeta in CL. change (Z.max 1 (maxIt - 1)) with top in CL. clearbody top.
  destruct CL as [(p & w & H1 & H2 & H3 & H4 & H5)|(H1 & p & H2 & H3 & H4)].
  - assert (p = top) as -> by (destruct H4 as [H4|(H4 & C)]; [exact H4|destruct (N p H4 C)]). split; [intros _; now rewrite H2|].
    intros (a & Ha & Ea). destruct (Z.eq_dec a top) as [->|]; [congruence|]. destruct (Z.eq_dec a 1) as [->|].
    + rewrite iter_vsum, Ea. reflexivity.
    + destruct (H5 a ltac:(lia)) as (X & _). destruct (X Ea).
  - split; [intro X; destruct (X p H2 H3)|]. intros _. exact H1.
Qed.
End Loop.
End T.
Print Assumptions C102_combination.
Print Assumptions C102_p1_corners.
Print Assumptions C102_q1_corners.
Print Assumptions C102_quadrature.
Print Assumptions C102_loop.
Print Assumptions C102_overflow.

(** A quadrilateral with finite corners whose integration element overflows: with the midpoint rule for the orders 1 to 3 and no rule beyond, the volume is not infinite, the call fails. *)
Definition big_quad : list (nat -> binary_float 24 128) :=
  [two (sgl 0 0) (sgl 0 0); two (sgl 1 100) (sgl 0 0); two (sgl 0 0) (sgl 1 100); two (sgl 1 100) (sgl 1 101)].
Definition q1_intel (vertices : list (nat -> binary_float 24 128)) (x : nat -> binary_float 24 128) : option (binary_float 24 128) :=
  flf_integrationElement 24 128 p24 e128 2 2 (fun _ _ => sgl 0 0) (fun _ _ => sgl 0 0) (fq1_jacobians 24 128 p24 e128 2 x) vertices.
Definition midpoint (top p : Z) : option (list ((nat -> binary_float 24 128) * binary_float 24 128)) :=
  if (p <=? top)%Z then Some [(two (sgl 1 (-1)) (sgl 1 (-1)), sgl 1 0)] else None.
Theorem C102_finite_corners_refuted : exists vertices : list (nat -> binary_float 24 128), length vertices = 4%nat /\
  (forall v k, In v vertices -> is_finite (v k) = true) /\
  vsum 24 128 p24 e128 (midpoint 3) (q1_intel vertices) 1 = Some (B754_infinity false) /\
  forall tol, fvolume_iter 24 128 p24 e128 (midpoint 3) (q1_intel vertices) false 100 tol = None.
Proof.
  exists big_quad. split; [reflexivity|]. split; [intros v k [<-|[<-|[<-|[<-|[]]]]]; destruct k; reflexivity|].
  assert (E : forall p, vsum 24 128 p24 e128 (midpoint 3) (q1_intel big_quad) p = if (p <=? 3)%Z then Some (B754_infinity false) else None).
  { intro p. unfold vsum, midpoint. destruct (p <=? 3)%Z; [|reflexivity]. cbn [obind]. vm_compute. reflexivity. }
  split; [apply E|]. intro tol.
  apply (C102_overflow 24 128 p24 e128 (midpoint 3) (q1_intel big_quad) tol 100).
  - intros p w _ X. rewrite E in X. destruct (p <=? 3)%Z; [now injection X as <-|discriminate].
  - exists 4%Z. split; [lia|]. now rewrite E.
Qed.
Print Assumptions C102_finite_corners_refuted.

(** the quadrilateral (0,0), (2,0), (0,1), (3,2) with the basis of order one, at (1/2, 1/4): the image (9/8, 3/8); the integration element in the barycentre and the volume 7/2 *)
Definition quad102 : list (nat -> binary_float 24 128) :=
  [two (sgl 0 0) (sgl 0 0); two (sgl 2 0) (sgl 0 0); two (sgl 0 0) (sgl 1 0); two (sgl 3 0) (sgl 2 0)].
Example C102_example :
  option_map (fun y => map (fun k => B2SF (y k)) [0%nat; 1%nat]) (flf_global 24 128 p24 e128 2 (fq1_values 24 128 p24 e128 2 (two (sgl 1 (-1)) (sgl 1 (-2)))) quad102) = Some [B2SF (sgl 9 (-3)); B2SF (sgl 3 (-3))]
  /\ option_map B2SF (fvolume_iter 24 128 p24 e128 (midpoint 99) (q1_intel quad102) false 100 (sgl 1 (-10))) = Some (B2SF (sgl 7 (-1))).
Proof. split; vm_compute; reflexivity. Qed.
