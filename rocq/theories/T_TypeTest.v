(** Property theorems C94: the number of corners of a type, and the test programs of the types. *)
From Coq Require Import NArith PeanoNat Bool List Lia.
From Verif Require Import M_Type M_TypeIndex M_RefTopo P_Type P_Type2 S_Topo P_Topo P_RefTopo P_RefTopo2 M_TypeTest P_TypeTest T_Type T_RefTopo.
Import ListNotations.

(** ** How many types have a given number of corners *)

(** the ids found by the recursion: every topology with that many corners, each once *)
Theorem C94_enumeration : forall dim vertices, 2 <= dim ->
  NoDup (guessIds (dim - 1) vertices 2 1 1)
  /\ forall id, In id (guessIds (dim - 1) vertices 2 1 1)
       <-> N.odd id = true /\ (id < 2 ^ N.of_nat dim)%N /\ size id dim dim = vertices.
Proof. intros dim n H. split; [apply guess_nodup|]. intros id. now apply guess_all. Qed.
Print Assumptions C94_enumeration.

(** a type is guessed exactly if all types with that many corners compare equal to it *)
Theorem C94_guess : forall dim vertices t, 2 <= dim <= 31 ->
  gt_dim t = dim -> gt_none t = false -> (gt_id t < 2 ^ N.of_nat dim)%N ->
  ((exists id, guessTopologyId dim vertices = Some id /\ gt_eqb (GT2 id dim) t = true)
   <-> size (gt_id t) dim dim = vertices
       /\ forall s, gt_dim s = dim -> gt_none s = false -> (gt_id s < 2 ^ N.of_nat dim)%N ->
            size (gt_id s) dim dim = vertices -> gt_eqb s t = true).
Proof.
  intros dim n [d nn a] H Hd Hn Ha. cbn [gt_dim gt_none gt_id] in *. subst d nn.
  assert (U : to_uchar dim = dim) by (apply to_uchar_small; lia).
  assert (Q : forall x y, gt_eqb (mkGT dim false x) (mkGT dim false y) = true <-> N.shiftr x 1 = N.shiftr y 1).
  { intros x y. unfold gt_eqb. cbn [gt_dim gt_none gt_id Bool.eqb orb andb]. rewrite Nat.eqb_refl. cbn [andb]. apply N.eqb_eq. }
  split.
  - intros (id & G & E). unfold GT2 in E. rewrite U, Q in E. apply guess_some in G; [|exact H]. destruct G as ((G1 & G2 & G3) & G4).
    split; [rewrite <- G3; now apply corners_half|].
    intros [d nn b] Sd Sn Sb Ss. cbn [gt_dim gt_none gt_id] in *. subst d nn. apply Q. rewrite <- E.
    rewrite <- (G4 (N.setbit b 0)); [symmetry; apply set_bit0_half|apply set_bit0_odd|apply set_bit0_lt; [lia|exact Sb]|].
    rewrite <- Ss. apply corners_half, set_bit0_half.
  - intros [A B]. exists (N.setbit a 0). split; [|unfold GT2; rewrite U, Q; apply set_bit0_half].
    apply guess_some; [exact H|]. split.
    + split; [apply set_bit0_odd|]. split; [apply set_bit0_lt; [lia|exact Ha]|]. rewrite <- A. apply corners_half, set_bit0_half.
    + intros b B1 B2 B3. apply odd_half; [exact B1|apply set_bit0_odd|]. rewrite set_bit0_half.
      apply Q. apply (B (mkGT dim false b)); auto.
Qed.
Print Assumptions C94_guess.

(** up to dimension 4 the number of corners determines the type *)
Theorem C94_determined : forall s t, gt_dim s = gt_dim t -> gt_dim t <= 4 -> gt_none s = false -> gt_none t = false ->
  (gt_id s < 2 ^ N.of_nat (gt_dim s))%N -> (gt_id t < 2 ^ N.of_nat (gt_dim t))%N ->
  size (gt_id s) (gt_dim s) (gt_dim s) = size (gt_id t) (gt_dim t) (gt_dim t) -> gt_eqb s t = true.
Proof.
  intros [d n a] [d' n' b]. cbn [gt_dim gt_none gt_id]. intros -> Hd -> -> Ha Hb E.
  unfold gt_eqb. cbn [gt_dim gt_none gt_id Bool.eqb orb andb]. rewrite Nat.eqb_refl. cbn [andb]. apply N.eqb_eq.
  assert (R : forall x m, (x < N.of_nat m)%N -> exists k, In k (seq 0 m) /\ x = N.of_nat k).
  { intros x m Hx. exists (N.to_nat x). split; [apply in_seq; lia|lia]. }
  assert (C : forallb (fun d => forallb (fun i => forallb (fun j =>
     implb (size (N.of_nat i) d d =? size (N.of_nat j) d d) (N.shiftr (N.of_nat i) 1 =? N.shiftr (N.of_nat j) 1)%N) (seq 0 (2 ^ d))) (seq 0 (2 ^ d))) (seq 0 5) = true)
    by reflexivity.
  rewrite forallb_forall in C. specialize (C d' ltac:(apply in_seq; lia)). rewrite forallb_forall in C.
  assert (P : (2 ^ N.of_nat d' = N.of_nat (2 ^ d'))%N) by (rewrite Nat2N.inj_pow; reflexivity). rewrite P in Ha, Hb.
  destruct (R _ _ Ha) as (i & I1 & ->). destruct (R _ _ Hb) as (j & J1 & ->).
  specialize (C i I1). rewrite forallb_forall in C. specialize (C j J1).
  rewrite E, Nat.eqb_refl in C. cbn [implb] in C. now apply N.eqb_eq.
Qed.
Print Assumptions C94_determined.

(** from dimension 5 on it does not: 10 + (dim - 5) corners belong to two types *)
Theorem C94_ambiguous : forall dim, 5 <= dim -> exists s t,
  gt_dim s = dim /\ gt_dim t = dim /\ gt_none s = false /\ gt_none t = false
  /\ (gt_id s < 2 ^ N.of_nat dim)%N /\ (gt_id t < 2 ^ N.of_nat dim)%N
  /\ size (gt_id s) dim dim = dim + 5 /\ size (gt_id t) dim dim = dim + 5 /\ gt_eqb s t = false.
Proof.
  intros dim H. exists (mkGT dim false 7), (mkGT dim false 17). cbn [gt_dim gt_none gt_id].
  assert (P : (2 ^ 5 <= 2 ^ N.of_nat dim)%N) by (apply N.pow_le_mono_r; lia). change (2 ^ 5)%N with 32%N in P.
  assert (S : forall a, (a < 32)%N -> forall k, size a (5 + k) (5 + k) = size a 5 5 + k).
  { intros a Ha. induction k as [|k IH]; [rewrite !Nat.add_0_r; reflexivity|].
    replace (5 + S k) with (S (5 + k)) by lia. rewrite corners_S by lia.
    replace (N.testbit a (N.of_nat (5 + k))) with false; [lia|]. symmetry.
    apply (proj1 (lt_bit_bits a 5) Ha). lia. }
  repeat (split; [first [reflexivity|lia]|]).
  replace dim with (5 + (dim - 5)) at 1 2 4 5 by lia. rewrite !S by lia.
  split; [replace (size 7 5 5) with 10 by reflexivity; lia|]. split; [replace (size 17 5 5) with 10 by reflexivity; lia|].
  unfold gt_eqb. cbn [gt_dim gt_none gt_id Bool.eqb orb]. rewrite Nat.eqb_refl. reflexivity.
Qed.
Print Assumptions C94_ambiguous.

(** so the guess throws there although there are such types *)
Theorem C94_too_many : forall dim, 5 <= dim -> guessTopologyId dim (dim + 5) = None.
Proof.
  intros dim H. destruct (Nat.le_gt_cases dim 31) as [L|L].
  - destruct (C94_ambiguous dim H) as ([d1 n1 a] & [d2 n2 b] & D1 & D2 & N1 & N2 & A1 & B1 & A2 & B2 & E).
    cbn [gt_dim gt_none gt_id] in *. subst d1 d2 n1 n2.
    destruct (guessTopologyId dim (dim + 5)) as [id|] eqn:G; [exfalso|reflexivity].
    apply guess_some in G; [|lia]. destruct G as (_ & G).
    assert (X : N.setbit a 0 = N.setbit b 0).
    { rewrite (G (N.setbit a 0)), (G (N.setbit b 0)); try reflexivity; try apply set_bit0_odd; try (apply set_bit0_lt; [lia|assumption]).
      - rewrite <- B2. apply corners_half, set_bit0_half.
      - rewrite <- A2. apply corners_half, set_bit0_half. }
    unfold gt_eqb in E. cbn [gt_dim gt_none gt_id Bool.eqb orb andb] in E. rewrite Nat.eqb_refl in E. cbn [andb] in E.
    rewrite <- (set_bit0_half a), <- (set_bit0_half b), X, N.eqb_refl in E. discriminate.
  - unfold guessTopologyId. destruct (Nat.eqb_spec dim 0), (Nat.eqb_spec dim 1); try lia. cbn [orb].
    destruct (Nat.leb_spec 32 dim); [reflexivity|lia].
Qed.
Print Assumptions C94_too_many.

(** "This code only works up to dimension 3.  In higher dimensions the number of vertices does
    not uniquely identify the type of polyhedron" (typefromvertexcount.hh:14-15): it does in
    dimension 4, where the function throws for every number of vertices *)
Theorem C94_dimension_four_refuted : exists dim, 3 < dim
  /\ (forall a b, (a < 2 ^ N.of_nat dim)%N -> (b < 2 ^ N.of_nat dim)%N ->
        size a dim dim = size b dim dim -> gt_eqb (GT2 a dim) (GT2 b dim) = true)
  /\ (forall a, (a < 2 ^ N.of_nat dim)%N -> exists id,
        guessTopologyId dim (size a dim dim) = Some id /\ gt_eqb (GT2 id dim) (GT2 a dim) = true)
  /\ forall n, geometryTypeFromVertexCount dim n = None.
Proof.
  exists 4. assert (D : forall a b, (a < 2 ^ N.of_nat 4)%N -> (b < 2 ^ N.of_nat 4)%N -> size a 4 4 = size b 4 4 -> gt_eqb (GT2 a 4) (GT2 b 4) = true).
  { intros a b A B E. apply C94_determined; [reflexivity|cbn; lia|reflexivity|reflexivity|exact A|exact B|exact E]. }
  split; [lia|]. split; [exact D|]. split; [|reflexivity].
  intros a A. apply (C94_guess 4 (size a 4 4) (GT2 a 4)); [lia|reflexivity|reflexivity|exact A|]. split; [reflexivity|].
  intros s S1 S2 S3 S4. apply C94_determined; [exact S1|cbn; lia|exact S2|reflexivity|rewrite S1; exact S3|exact A|rewrite S1; exact S4].
Qed.
Print Assumptions C94_dimension_four_refuted.

(** ** test-fromvertexcount.cc *)

(** up to dimension 3 the guess and the library agree for every number of vertices *)
Theorem C94_library : forall dim n, dim <= 3 ->
  match geometryTypeFromVertexCount dim n with
  | Some t => exists id, guessTopologyId dim n = Some id /\ gt_eqb (GT2 id dim) t = true
  | None => guessTopologyId dim n = None
  end.
Proof.
  intros dim n H. destruct (Nat.le_gt_cases dim 1) as [L|L].
  { destruct dim as [|[|d]]; [| |lia]; exists 0%N; split; reflexivity. }
  destruct (geometryTypeFromVertexCount dim n) as [t|] eqn:E.
  - pose proof (C09_vertex_count_partial dim n t E) as (T1 & T2 & T3 & T4). specialize (T4 ltac:(lia)).
    apply C94_guess; [lia|exact T1|exact T2|exact T3|]. split; [exact T4|]. intros s S1 S2 S3 S4.
    apply C94_determined; [congruence|lia|exact S2|exact T2|rewrite S1; exact S3|rewrite T1; exact T3|rewrite S1, T1; congruence].
  - destruct (C09_vertex_count_rejects dim n ltac:(lia) E) as [C|C]; [lia|].
    destruct (guessTopologyId dim n) as [id|] eqn:G; [exfalso|reflexivity].
    apply guess_some in G; [|lia]. destruct G as ((_ & G2 & G3) & _). now apply (C id).
Qed.
Print Assumptions C94_library.

(** what the program asks of the function it tests: eight values, up to equality of types *)
Theorem C94_verdict : forall f, vc_main f = true <->
  forall dim n t, In (dim, n, t) [(0, 1, vertex); (1, 2, line); (2, 3, triangle); (2, 4, quadrilateral);
                                  (3, 4, tetrahedron); (3, 5, pyramid); (3, 6, prism); (3, 8, hexahedron)] ->
    exists u, f dim n = Some u /\ gt_eqb u t = true.
Proof.
  intros f.
  assert (K : forall dim n t, geometryTypeFromVertexCount dim n = Some t -> dim <= 3 -> (testGuess f dim n = true <-> exists u, f dim n = Some u /\ gt_eqb u t = true)).
  { intros dim n t G L. pose proof (C94_library dim n L) as Q. rewrite G in Q. destruct Q as (id & Q1 & Q2).
    unfold testGuess. rewrite Q1. unfold gt_neqb. destruct (f dim n) as [u|].
    - rewrite negb_involutive. split.
      + intros E. exists u. split; [reflexivity|]. eapply gt_eqb_trans; [apply gt_eqb_sym; exact E|exact Q2].
      + intros (v & V & E). injection V as <-. eapply gt_eqb_trans; [exact Q2|apply gt_eqb_sym; exact E].
    - split; [discriminate|]. intros (v & V & _). discriminate. }
  assert (X : vc_main f = true <-> forall dim n t, In (dim, n, t) [(0, 1, vertex); (1, 2, line); (2, 3, triangle); (2, 4, quadrilateral);
                                  (3, 4, tetrahedron); (3, 5, pyramid); (3, 6, prism); (3, 8, hexahedron)] -> testGuess f dim n = true).
  { unfold vc_main. cbn [seq forallb nth vc_configurations]. rewrite !andb_true_iff. split.
    - intros H dim n t [E|[E|[E|[E|[E|[E|[E|[E|[]]]]]]]]]; injection E as <- <- <-; tauto.
    - intros H. repeat split; match goal with |- testGuess f ?d ?n = true =>
        destruct (geometryTypeFromVertexCount d n) as [t|] eqn:E; [|discriminate]; apply (H d n t); cbn in E; injection E as <-; cbn; tauto end. }
  rewrite X. split; intros H dim n t I; specialize (H dim n t I).
  - apply (K dim n t); [|cbn in I; repeat (destruct I as [I|I]; [injection I as <- <- <-; lia|]); destruct I|exact H].
    cbn in I; repeat (destruct I as [I|I]; [injection I as <- <- <-; reflexivity|]); destruct I.
  - apply (K dim n t); [|cbn in I; repeat (destruct I as [I|I]; [injection I as <- <- <-; lia|]); destruct I|exact H].
    cbn in I; repeat (destruct I as [I|I]; [injection I as <- <- <-; reflexivity|]); destruct I.
Qed.
Print Assumptions C94_verdict.

Theorem C94_main : vc_main geometryTypeFromVertexCount = true.
Proof.
  apply C94_verdict. intros dim n t I.
  cbn in I; repeat (destruct I as [I|I]; [injection I as <- <- <-; eexists; split; [reflexivity|reflexivity]|]); destruct I.
Qed.
Print Assumptions C94_main.

(** the exceptions are not tested: a function that never throws passes, whatever it returns
    for the other numbers of vertices *)
Theorem C94_exceptions_refuted : forall g : nat -> nat -> GeometryType, exists f,
  vc_main f = true /\ (forall dim n, f dim n <> None)
  /\ forall dim n, geometryTypeFromVertexCount dim n = None -> f dim n = Some (g dim n).
Proof.
  intros g. exists (fun dim n => match geometryTypeFromVertexCount dim n with Some t => Some t | None => Some (g dim n) end).
  split; [|split].
  - apply C94_verdict. intros dim n t I.
    cbn in I; repeat (destruct I as [I|I]; [injection I as <- <- <-; eexists; split; [reflexivity|reflexivity]|]); destruct I.
  - intros dim n. now destruct (geometryTypeFromVertexCount dim n).
  - intros dim n ->. reflexivity.
Qed.
Print Assumptions C94_exceptions_refuted.

(** ** test-nonetype.cc *)

Theorem C94_none : forall f, nt_main f = true <-> forall dim, dim < 10 -> gt_none (f dim) = true.
Proof.
  intros f. unfold nt_main. rewrite forallb_forall. split; intros H d Hd; apply H; [apply in_seq; lia|apply in_seq in Hd; lia].
Qed.
Print Assumptions C94_none.
(** the library is right in every dimension; the dimension of the type is not tested *)
Theorem C94_none_main : nt_main none = true /\ forall dim, gt_none (none dim) = true.
Proof. split; [apply C94_none|]; reflexivity. Qed.
Print Assumptions C94_none_main.
Theorem C94_none_refuted : exists f, nt_main f = true /\ forall dim, 0 < dim -> gt_dim (f dim) <> dim.
Proof. exists (fun _ => none 0). split; [reflexivity|]. intros dim H E. cbn in E. lia. Qed.
Print Assumptions C94_none_refuted.

(** ** test-geometrytype-id.cc *)

(** two static assertions; the test at run time cannot fail *)
Theorem C94_id : forall to of ext, id_main to of ext = true <->
  gt_eqb (of (to triangle)) triangle = true /\ gt_eqb (of (to (ext (of (to triangle))))) prism = true.
Proof.
  intros to of ext. unfold id_main, foo_apply, foo_gt. cbv zeta. rewrite N.eqb_refl, andb_true_r, andb_true_iff. split; intros [A B]; (split; [|exact B]); now apply gt_eqb_sym.
Qed.
Print Assumptions C94_id.
Theorem C94_id_main : id_main toId ofId prismaticExtension = true.
Proof. apply C94_id. split; reflexivity. Qed.
Print Assumptions C94_id_main.
(** an id that tells two types apart and no others is enough *)
Theorem C94_id_refuted : exists to of, id_main to of prismaticExtension = true
  /\ forall s, gt_none s = false -> gt_eqb s triangle = false -> gt_eqb (of (to s)) s = true -> gt_eqb s prism = true.
Proof.
  exists (fun t => if gt_eqb t triangle then 0%N else 1%N), (fun i => if (i =? 0)%N then triangle else prism).
  split; [apply C94_id; split; reflexivity|]. intros s _ ->. cbn [N.eqb]. apply gt_eqb_sym.
Qed.
Print Assumptions C94_id_refuted.

(** ** test-constexpr-geometrytype.cc *)

Theorem C94_constexpr : forall d0 f gt2, ce_main d0 f gt2 = true <->
  gt_none d0 = true /\ gt_none (f 0) = true /\ gt_eqb (gt2 1%N 1) line = true.
Proof.
  intros d0 f gt2. unfold ce_main. rewrite !andb_true_iff. unfold gt_eqb at 1. destruct (gt_none d0); [|cbn; split; intros; intuition discriminate].
  cbn [orb]. rewrite andb_true_r. rewrite Bool.eqb_true_iff. split; [intros ((_ & A) & B)|intros (_ & A & B)]; (split; [reflexivity|split; [symmetry; exact A|exact B]]) || (split; [split; [reflexivity|symmetry; exact A]|exact B]).
Qed.
Print Assumptions C94_constexpr.
Theorem C94_constexpr_main : ce_main GT0 none GT2 = true.
Proof. apply C94_constexpr. repeat split. Qed.
Print Assumptions C94_constexpr_main.

(** ** Examples *)

Example C94_example :
  guessTopologyId 3 6 = Some 5%N /\ guessTopologyId 3 7 = None /\ guessTopologyId 4 12 = Some 13%N
  /\ guessTopologyId 4 11 = None /\ guessIds 4 10 2 1 1 = [17%N; 7%N] /\ guessTopologyId 5 10 = None
  /\ guessTopologyId 1 17 = Some 0%N.
Proof. repeat split. Qed.
