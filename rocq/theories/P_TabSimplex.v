(** The triangle, tetrahedron and prism tables pass the moment check. *)
From Coq Require Import NArith ZArith QArith PeanoNat Reals List Qreals Lia Lra Bool.
From Verif Require Import M_Tab M_TabSimplex M_RefGeo M_Quadrature S_Topo S_QuadND P_QuadFix P_QuadProd P_QuadFixN.
Import ListNotations.

Definition TriT : Topo := Pyr (Pyr Pt).
Definition TetT : Topo := Pyr TriT.
Definition PriT : Topo := Pri TriT.

Definition tolOf (c k : Z) : Z := (c * sc / 10 ^ k - 40000)%Z.
Definition checkN (T : Topo) (prog : list Assign) (m deg : nat) (c k : Z) : bool :=
  tableN_ok T deg (tolOf c k) c k (storeData (tdim T) (run prog) m).
Definition posN (prog : list Assign) (m : nat) : bool :=
  forallb (fun i => Z.ltb 0 (Qnum (st_W (run prog) m i))) (seq 0 m).

(** rule [m] of [prog], asked for order [p]: error [c]/10^[k] up to the delivered order *)
Definition ruleN_ok (T : Topo) (prog : list Assign) (m : nat) (p c k : Z) (pos : bool) : bool :=
  let o := st_O (run prog) m in
  (p <=? o)%Z && checkN T prog m (Z.to_nat o) c k && (negb pos || posN prog m).

Definition orders (n : nat) : list Z := map Z.of_nat (seq 0 n).

Lemma triangle_chk : forallb (fun p => ruleN_ok TriT triangleInit (triangleM p) p
  (if Z.eqb p 12 then 3 else 1) (if Z.eqb p 12 then 15 else 20) (negb (Z.eqb p 3))) (orders 13) = true.
Proof. vm_compute. reflexivity. Qed.
Lemma tetrahedron_chk : forallb (fun p => ruleN_ok TetT tetrahedronInit (tetrahedronM p) p 1 17 true) (orders 6) = true.
Proof. vm_compute. reflexivity. Qed.
Lemma prism_chk : ruleN_ok PriT prismInit 6 2 1 16 true = true.
Proof. vm_compute. reflexivity. Qed.

(** ** consequences *)
Local Open Scope R_scope.

Definition samePts (n : nat) (q q' : QPoint) : Prop :=
  snd q = snd q' /\ forall k, (k < n)%nat -> fst q k = fst q' k.

Lemma quad_same n pts pts' f : Forall2 (samePts n) pts pts' ->
  (forall x y, (forall k, (k < n)%nat -> x k = y k) -> f x = f y) -> quad pts f = quad pts' f.
Proof.
  intros H Hf. induction H as [|q q' pts pts' [E1 E2] H IH]; cbn [quad]; [reflexivity|].
  rewrite IH, E1, (Hf (fst q) (fst q')); auto.
Qed.

Lemma store_same t dim s m : Forall2 (samePts dim) (toPts (storeData dim s m)) (ru_points (storeRule t s m)).
Proof.
  unfold toPts, storeData, storeRule. cbn [ru_points]. rewrite map_map. induction (seq 0 m) as [|i l IH]; cbn [map]; constructor; [|exact IH].
  split; [reflexivity|]. cbn [fst]. intros k Hk. unfold ptV.
  rewrite (nth_indep _ _ (st_G s m i 0%nat)) by (now rewrite map_length, seq_length).
  rewrite map_nth, seq_nth by lia. reflexivity.
Qed.

Lemma ruleN_R T t prog m p c k pos : ruleN_ok T prog m p c k pos = true ->
  let r := storeRule t (run prog) m in
  (p <= ru_order r)%Z
  /\ momExact 0 T (Z.to_nat (ru_order r)) (IZR c / IZR (10 ^ k)) (ru_points r)
  /\ insidePts T (ru_points r)
  /\ (pos = true -> forall q, In q (ru_points r) -> 0 < snd q).
Proof.
  intros H r. unfold ruleN_ok in H. cbv zeta in H. rewrite !andb_true_iff, Z.leb_le in H. destruct H as ((A & B) & C).
  apply tableN_R in B. destruct B as [B1 B2]. pose proof (store_same t (tdim T) (run prog) m) as SM. fold r in SM.
  split; [exact A|]. split; [|split].
  - intros e De. rewrite <- (quad_same _ _ _ _ SM); [now apply B1|].
    intros x y E. now apply monomial_ext.
  - intros q I. clear B1. induction SM as [|q1 q2 l1 l2 [_ E2] SM IH]; [destruct I|].
    destruct I as [<-|I].
    + apply (insideT_ext T (fst q1)); [exact E2|]. apply B2. now left.
    + apply IH; [intros q' I'; apply B2; now right|exact I].
  - intros -> q I. cbn [negb orb] in C. unfold posN in C. rewrite forallb_forall in C.
    unfold r, storeRule in I. cbn [ru_points] in I. apply in_map_iff in I. destruct I as (i & <- & I). cbn [snd].
    specialize (C i I). apply Z.ltb_lt in C. unfold Q2R. apply Rmult_lt_0_compat; [now apply IZR_lt|].
    apply Rinv_0_lt_compat. now apply IZR_lt.
Qed.

Lemma in_orders p n : (0 <= p < Z.of_nat n)%Z -> In p (orders n).
Proof. intros H. apply in_map_iff. exists (Z.to_nat p). split; [lia|]. apply in_seq. lia. Qed.

Lemma triangle_R p : (0 <= p <= 12)%Z ->
  let r := storeRule M_Type.triangle (run triangleInit) (triangleM p) in
  (p <= ru_order r)%Z
  /\ momExact 0 TriT (Z.to_nat (ru_order r)) (if Z.eqb p 12 then 3 / IZR (10 ^ 15) else 1 / IZR (10 ^ 20)) (ru_points r)
  /\ insidePts TriT (ru_points r)
  /\ (p <> 3%Z -> forall q, In q (ru_points r) -> 0 < snd q).
Proof.
  intros H r. pose proof triangle_chk as C. rewrite forallb_forall in C.
  specialize (C p (in_orders p 13 ltac:(lia))). cbv beta in C.
  apply (ruleN_R _ M_Type.triangle) in C. fold r in C. cbv zeta in C. destruct C as (C1 & C2 & C3 & C4).
  split; [exact C1|]. split; [|split; [exact C3|]].
  - destruct (Z.eqb p 12); exact C2.
  - intros N. apply C4. destruct (Z.eqb_spec p 3); [contradiction|reflexivity].
Qed.
Lemma tetrahedron_R p : (0 <= p <= 5)%Z ->
  let r := storeRule M_Type.tetrahedron (run tetrahedronInit) (tetrahedronM p) in
  (p <= ru_order r)%Z
  /\ momExact 0 TetT (Z.to_nat (ru_order r)) (1 / IZR (10 ^ 17)) (ru_points r)
  /\ insidePts TetT (ru_points r)
  /\ (forall q, In q (ru_points r) -> 0 < snd q).
Proof.
  intros H r. pose proof tetrahedron_chk as C. rewrite forallb_forall in C.
  specialize (C p (in_orders p 6 ltac:(lia))). cbv beta in C.
  apply (ruleN_R _ M_Type.tetrahedron) in C. cbv zeta in C. destruct C as (C1 & C2 & C3 & C4). auto.
Qed.
Lemma prism_R :
  (2 <= ru_order prismRule)%Z
  /\ momExact 0 PriT (Z.to_nat (ru_order prismRule)) (1 / IZR (10 ^ 16)) (ru_points prismRule)
  /\ insidePts PriT (ru_points prismRule)
  /\ (forall q, In q (ru_points prismRule) -> 0 < snd q).
Proof.
  pose proof prism_chk as C.
  apply (ruleN_R _ M_Type.prism) in C. cbv zeta in C. destruct C as (C1 & C2 & C3 & C4). auto.
Qed.
