(** Proofs about the test programs of the Python layer: what the control structures check, and
    the round trips, tuples and sums they check. *)
From Coq Require Import NArith ZArith PeanoNat Bool List Ascii String Lia Reals Lra.
From Coquelicot Require Import Coquelicot.
From Verif Require Import M_Type M_TypeIndex M_TypeString M_RefGeo M_RefTopo M_QuadFactory M_Quadrature M_Container M_PyRules M_PyTest
  S_Topo S_RefGeo S_Quad S_QuadND P_Topo P_Type P_Type2 P_RefGeo2 P_QuadProd P_QuadTest1 P_PyRules P_PyRules2 T_TypeString T_Container T_PyRules.
Import ListNotations.
Local Open Scope nat_scope.

(** ** Control structures *)
Lemma andThen_true a b : andThen a b = Some true <-> a = Some true /\ b = Some true.
Proof. destruct a as [[|]|]; cbn [andThen]; split; intros H; [auto|tauto|discriminate|destruct H; discriminate|discriminate|destruct H; discriminate]. Qed.
Lemma forEach_true {A} (f : A -> Ending) l : forEach f l = Some true <-> forall a, In a l -> f a = Some true.
Proof.
  induction l as [|a l IH]; cbn [forEach]; [split; [intros _ b []|reflexivity]|]. rewrite andThen_true, IH. split.
  - intros [H1 H2] b [<-|H]; auto.
  - intros H. split; [apply H; now left|intros b Hb; apply H; now right].
Qed.
Lemma forEach_app {A} (f : A -> Ending) l m : forEach f (l ++ m) = andThen (forEach f l) (forEach f m).
Proof. induction l as [|a l IH]; cbn [forEach app]; [reflexivity|]. rewrite IH. destruct (f a) as [[|]|]; reflexivity. Qed.

(** ** Types *)
Definition reads (parse : str -> Res GeometryType) (s : str) (t : GeometryType) : Prop :=
  exists u, parse s = Ok u /\ gt_eqb u t = true.
Lemma pt_assert_true parse s t : pt_assert parse s t = Some true <-> reads parse s t.
Proof.
  unfold pt_assert, reads. destruct (parse s) as [u| |]; split.
  - intros H. exists u. split; [reflexivity|congruence].
  - intros (v & E & H). injection E as <-. now rewrite H.
  - discriminate.
  - intros (v & E & _). discriminate.
  - discriminate.
  - intros (v & E & _). discriminate.
Qed.
Lemma cube_c_ok d : match cube_c (N.of_nat d) with Ok t => d < 31 /\ t = cube d | Throw => False | M_TypeString.Undef => 31 <= d end.
Proof.
  unfold cube_c. destruct ((1 <? N.of_nat d) && (31 <=? N.of_nat d))%N eqn:E.
  - apply andb_prop in E. destruct E as [_ E]. apply N.leb_le in E. lia.
  - rewrite Nnat.Nat2N.id. split; [|reflexivity]. apply andb_false_iff in E. rewrite N.ltb_ge, N.leb_gt in E. lia.
Qed.
Lemma pt_general_true parse text d : pt_general parse text d = Some true
  <-> d < 31 /\ reads parse (text (simplex d)) (simplex d) /\ reads parse (text (cube d)) (cube d) /\ reads parse (text (none d)) (none d).
Proof.
  unfold pt_general. rewrite !andThen_true. pose proof (cube_c_ok d) as C. destruct (cube_c (N.of_nat d)) as [t| |].
  - destruct C as [C ->]. rewrite !pt_assert_true. tauto.
  - contradiction.
  - split; [intros (_ & X & _); discriminate|intros (X & _); lia].
Qed.

(** ** Tuples *)
Definition agrees {A} (eqb : A -> A -> bool) (tuple : Py (list A)) (size : Py nat) (get : Z -> Py A) : Prop :=
  exists l, tuple = PyReturn l /\ size = PyReturn (List.length l)
    /\ forall i a, nth_error l i = Some a -> exists b, get (Z.of_nat i) = PyReturn b /\ eqb a b = true.
Lemma in_combine_seq {A} (l : list A) : forall k i a, In (i, a) (combine (seq k (List.length l)) l) <-> k <= i /\ nth_error l (i - k) = Some a.
Proof.
  induction l as [|x l IH]; intros k i a; cbn [List.length seq combine In].
  - split; [intros []|intros [_ H]]. destruct (i - k); discriminate.
  - rewrite IH. split.
    + intros [E|[H1 H2]]; [injection E as -> ->; rewrite Nat.sub_diag; cbn; auto|]. split; [lia|].
      replace (i - k) with (S (i - S k)) by lia. exact H2.
    + intros [H1 H2]. destruct (Nat.eq_dec k i) as [->|N]; [left; rewrite Nat.sub_diag in H2; cbn in H2; congruence|right].
      split; [lia|]. replace (i - k) with (S (i - S k)) in H2 by lia. exact H2.
Qed.
Lemma pr_tuple_true {A} (eqb : A -> A -> bool) tuple size get : pr_tuple eqb tuple size get = Some true <-> agrees eqb tuple size get.
Proof.
  unfold pr_tuple, agrees, eval. destruct tuple as [|l|]; [split; [discriminate|intros (l & E & _); discriminate]| |split; [discriminate|intros (l & E & _); discriminate]].
  destruct size as [|n|]; [split; [discriminate|intros (m & _ & E & _); discriminate]| |split; [discriminate|intros (m & _ & E & _); discriminate]].
  destruct (Nat.eqb_spec (List.length l) n) as [<-|N]; cbn [negb].
  - rewrite forEach_true. split.
    + intros H. exists l. split; [reflexivity|]. split; [reflexivity|]. intros i a Hi. specialize (H (i, a)).
      rewrite in_combine_seq, Nat.sub_0_r in H. specialize (H (conj (Nat.le_0_l i) Hi)). cbn [fst snd] in H.
      destruct (get (Z.of_nat i)) as [|b|]; [discriminate| |discriminate]. exists b. split; [reflexivity|congruence].
    + intros (m & E & _ & H) [i a] Hi. injection E as <-. apply in_combine_seq in Hi. rewrite Nat.sub_0_r in Hi. destruct Hi as [_ Hi].
      destruct (H i a Hi) as (b & G & E). cbn [fst snd]. now rewrite G, E.
  - split; [discriminate|]. intros (m & E & F & _). injection E as <-. congruence.
Qed.
Lemma vec_eqb_true n x y : vec_eqb n x y = true <-> forall k, k < n -> x k = y k.
Proof.
  unfold vec_eqb. rewrite forallb_forall. split.
  - intros H k Hk. specialize (H k). rewrite in_seq in H. destruct (Req_EM_T (x k) (y k)); [assumption|].
    discriminate H. lia.
  - intros H k Hk. apply in_seq in Hk. destruct (Req_EM_T (x k) (y k)) as [|N]; [reflexivity|]. elim N. apply H. lia.
Qed.
Lemma vec_eqb_refl n x : vec_eqb n x x = true.
Proof. now apply vec_eqb_true. Qed.

(** ** Sums over points *)
Local Open Scope R_scope.
Definition pyPoly (d p : nat) : MPoly := map (fun k => (1, powE k p)) (seq 0 d).
Lemma fold_sum (f : nat -> R) l : forall s, fold_left (fun s i => s + f i) l s = s + fold_right (fun i t => f i + t) 0 l.
Proof. induction l as [|a l IH]; intros s; cbn [fold_left fold_right]; [ring|]. rewrite IH. ring. Qed.
Lemma qy_monomial_poly d p x : qy_monomial d p x = peval d (pyPoly d p) x.
Proof.
  unfold qy_monomial, pyPoly. rewrite (fold_sum (fun i => x i ^ p)), Rplus_0_l.
  assert (H : forall i, In i (seq 0 d) -> (i < d)%nat) by (intros i Hi; apply in_seq in Hi; lia).
  induction (seq 0 d) as [|a l IH]; cbn [fold_right map peval]; [reflexivity|].
  destruct (powE_in d a p (H a (or_introl eq_refl))) as [_ E]. rewrite E, IH by (intros; apply H; now right). ring.
Qed.
Lemma qy_monomial_local d p x y : (forall k, (k < d)%nat -> x k = y k) -> qy_monomial d p x = qy_monomial d p y.
Proof. intros H. rewrite !qy_monomial_poly. now apply peval_local. Qed.
Lemma qy_value1_quad d p pts : qy_value1 d p pts = quad pts (qy_monomial d p).
Proof.
  unfold qy_value1. assert (G : forall s, fold_left (fun v q => v + qy_monomial d p (fst q) * snd q) pts s = s + quad pts (qy_monomial d p)).
  { induction pts as [|q pts IH]; intros s; cbn [fold_left quad]; [ring|]. rewrite IH. ring. }
  rewrite G. ring.
Qed.
Lemma qy_value2_some d p pts : (0 < d)%nat -> pts <> [] -> qy_value2 d p pts = Some (quad pts (qy_monomial d p)).
Proof.
  intros Hd Hp. unfold qy_value2. destruct (C76_numpy d pts Hd Hp) as (a & w & -> & S1 & S2 & N). cbn [option_map fst snd]. f_equal.
  etransitivity; [refine (fold_quad (qy_monomial d p) pts 0 0
    (fun c => qy_monomial d p (column (memory d pts) d a c) * match nd_get (memory d pts) w [c] with Some x => x | None => 0 end) _)|ring].
  intros c q Hc. cbn [Nat.add]. unfold QPoint in *.
  assert (X : forall k, (k < d)%nat -> column (memory d pts) d a c k = fst q k).
  { intros k Hk. unfold column. specialize (N k c). rewrite Hc in N. destruct N as [_ N]. now rewrite (N Hk). }
  specialize (N 0%nat c). rewrite Hc in N. destruct N as [N _]. rewrite N, (qy_monomial_local d p _ _ X). ring.
Qed.
Lemma qy_value2_none d p pts : qy_value2 d p pts = None <-> d = 0%nat \/ pts = [].
Proof.
  unfold qy_value2, quadratureToNumpy. destruct pts as [|q pts]; [cbn; tauto|]. destruct d as [|d]; cbn [option_map]; split; auto; [discriminate|].
  intros [H|H]; discriminate.
Qed.

Definition shapeTopo (s : QShape) : Topo := topo_of (gt_id (qy_type s)) (gt_dim (qy_type s)).
Lemma shape_dim s : (0 < gt_dim (qy_type s) <= 3)%nat.
Proof. destruct s; cbn; lia. Qed.
(** the integral of the monomials *)
Lemma qy_integral s p : Iint (shapeTopo s) (qy_monomial (gt_dim (qy_type s)) p) = pmom (momW 0 (shapeTopo s)) (pyPoly (gt_dim (qy_type s)) p).
Proof.
  rewrite <- IintW_peval. unfold shapeTopo. rewrite tdim_topo_of, <- IintW_Iint. apply IintW_ext. intros x. apply qy_monomial_poly.
Qed.
Lemma qy_result_integral p s x : qy_result p s = Some x -> x = Iint (shapeTopo s) (qy_monomial (gt_dim (qy_type s)) p).
Proof.
  intros H. rewrite qy_integral.
  do 5 (destruct p as [|p]; [destruct s; cbn [qy_result] in H; try discriminate H; injection H as <-;
    vm_compute (shapeTopo _); vm_compute (gt_dim _); unfold pyPoly; cbn [seq map pmom];
    cbn [momW tdim degree powE Nat.eqb Nat.add]; rewrite ?bmom0; cbn [fact Nat.add Nat.mul]; rewrite ?INR_IZR_INZ; cbn; field|]).
  discriminate.
Qed.
