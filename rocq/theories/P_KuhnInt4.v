(** The sum over the elements of SimplexRefinement of the integrals of a polynomial. *)
From Coq Require Import NArith ZArith PeanoNat Bool List Permutation Reals Factorial Lia Lra FunctionalExtensionality.
From Verif Require Import M_Type M_RefGeo M_Quadrature S_Topo S_RefGeo S_Quad1D S_QuadND P_Topo P_RSum P_RefGeo P_RefGeo4 P_QuadProd P_QuadAll
  M_Refine S_Refine P_Refine1 P_Refine2 P_Refine3 P_Refine4 P_Refine5 P_KuhnInt P_KuhnInt2 P_KuhnInt3.
Import ListNotations.
Local Open Scope R_scope.

Lemma topo_simplex : forall d, topo_of 0%N d = simT d.
Proof. induction d as [|d IH]; [reflexivity|]. rewrite topo_S, N.bits_0. cbn [simT]. rewrite IH. reflexivity. Qed.

Definition permAt (dim n k : nat) : nat -> nat :=
  match getPermutation dim (se_kuhn (elemAt dim n k)) with Some p => p | None => idp end.
Lemma inv_agree : forall d p q p' q', isPerm d p -> isPerm d p' -> (forall i, (i < d)%nat -> q (p i) = i) -> (forall i, (i < d)%nat -> p (q i) = i) ->
  (forall i, (i < d)%nat -> q' (p' i) = i) -> (forall i, (i < d)%nat -> p' (q' i) = i) -> agree d q q' -> agree d p p'.
Proof.
  intros d p q p' q' [P1 P2] [P1' P2'] QP PQ QP' PQ' A i Hi.
  rewrite <- (PQ' (p i)) by (apply P1; assumption). rewrite <- A by (apply P1; assumption). rewrite QP by assumption. reflexivity.
Qed.
Lemma perm_inverse : forall d p, isPerm d p -> exists q, isPerm d q /\ (forall i, (i < d)%nat -> q (p i) = i) /\ (forall i, (i < d)%nat -> p (q i) = i).
Proof.
  intros d p H. pose proof (perm_Permutation d p H) as PP. destruct H as [P1 P2].
  assert (S : forall j, (j < d)%nat -> exists i, (i < d)%nat /\ p i = j).
  { intros j Hj. assert (I : In j (map p (seq 0 d))) by (apply (Permutation_in j (Permutation_sym PP)); apply in_seq; lia).
    apply in_map_iff in I. destruct I as (i & E & I). apply in_seq in I. exists i. split; [lia|assumption]. }
  set (q := fun j => match find (fun i => Nat.eqb (p i) j) (seq 0 d) with Some i => i | None => 0%nat end).
  assert (Q : forall j, (j < d)%nat -> (q j < d)%nat /\ p (q j) = j).
  { intros j Hj. unfold q. destruct (find (fun i => Nat.eqb (p i) j) (seq 0 d)) as [i|] eqn:E.
    - apply find_some in E. destruct E as [I E]. apply in_seq in I. apply Nat.eqb_eq in E. split; [lia|assumption].
    - destruct (S j Hj) as (i & Hi & E'). pose proof (find_none _ _ E i ltac:(apply in_seq; lia)) as F. cbv beta in F. rewrite E', Nat.eqb_refl in F. discriminate. }
  exists q. split; [split|split].
  - intros j Hj. apply Q. assumption.
  - intros i j Hi Hj E. rewrite <- (proj2 (Q i Hi)), <- (proj2 (Q j Hj)), E. reflexivity.
  - intros i Hi. apply P2; [apply Q, P1; assumption|assumption|]. apply Q, P1. assumption.
  - intros j Hj. apply Q. assumption.
Qed.
(** the inverse of the permutation of an element, as a list *)
Definition posOf (dim : nat) (p : nat -> nat) : list nat :=
  map (fun j => match find (fun i => Nat.eqb (p i) j) (seq 0 dim) with Some i => i | None => 0%nat end) (seq 0 dim).
Lemma posOf_spec : forall d p q, isPerm d p -> isPerm d q -> (forall i, (i < d)%nat -> p (q i) = i) -> posOf d p = map q (seq 0 d).
Proof.
  intros d p q [P1 P2] [Q1 _] PQ. unfold posOf. apply map_ext_in. intros j J. apply in_seq in J.
  destruct (find (fun i => Nat.eqb (p i) j) (seq 0 d)) as [i|] eqn:E.
  - apply find_some in E. destruct E as [I E]. apply in_seq in I. apply Nat.eqb_eq in E. apply P2; [lia|apply Q1; lia|]. rewrite PQ by lia. assumption.
  - pose proof (find_none _ _ E (q j)) as F. cbv beta in F. rewrite PQ, Nat.eqb_refl in F by lia. specialize (Q1 j ltac:(lia)).
    discriminate F. apply in_seq. lia.
Qed.
Definition keyAt (dim n k : nat) : list nat * list nat := (map (se_origin (elemAt dim n k)) (seq 0 dim), posOf dim (permAt dim n k)).
Lemma lnth_seq : forall f d i, (i < d)%nat -> lnth (map f (seq 0 d)) i = f i.
Proof. intros. unfold lnth. apply nth_map_seq. assumption. Qed.
Lemma lnth_eta : forall l d, length l = d -> l = map (lnth l) (seq 0 d).
Proof.
  intros l d H. apply (nth_ext _ _ 0%nat 0%nat); [rewrite map_length, seq_length; assumption|]. intros i Hi. rewrite nth_map_seq by lia. reflexivity.
Qed.
Lemma keys_perm : forall dim n, (0 < dim)%nat -> (0 < n)%nat -> Permutation (map (keyAt dim n) (seq 0 (n ^ dim))) (El n dim).
Proof.
  intros dim n Hd Hn. apply NoDup_Permutation.
  - assert (G : forall l, NoDup l -> (forall k, In k l -> (k < n ^ dim)%nat) -> NoDup (map (keyAt dim n) l)).
    { intros l N. induction N as [|k l I N IH]; intros B; cbn [map]; [constructor|]. constructor; [|apply IH; intros; apply B; right; assumption].
      intros J. apply in_map_iff in J. destruct J as (k' & E & J). apply I. replace k with k'; [assumption|].
      pose proof (B k (or_introl eq_refl)) as Hk. pose proof (B k' (or_intror J)) as Hk'.
      destruct (elem_spec dim n k Hd Hn Hk) as (p & q & G & P & Q & qp & pq & _).
      destruct (elem_spec dim n k' Hd Hn Hk') as (p' & q' & G' & P' & Q' & qp' & pq' & _).
      unfold keyAt, permAt in E. rewrite G, G', (posOf_spec _ p q), (posOf_spec _ p' q') in E by assumption.
      pose proof (f_equal fst E) as E1. pose proof (f_equal snd E) as E2. cbn [fst snd] in E1, E2.
      apply (elem_inj dim n k' k p' p Hd Hn G' G).
      - apply (inv_agree dim p' q' p q P' P qp' pq' qp pq). intros i Hi. rewrite <- (lnth_seq q' dim), E2, lnth_seq by assumption. reflexivity.
      - intros i Hi. rewrite <- (lnth_seq (se_origin (elemAt dim n k')) dim), E1, lnth_seq by assumption. reflexivity. }
    apply G; [apply seq_NoDup|]. intros k I. apply in_seq in I. lia.
  - apply NoDup_El.
  - intros e. split; intros I.
    + apply in_map_iff in I. destruct I as (k & <- & I). apply in_seq in I. apply ok_el.
      destruct (elem_spec dim n k Hd Hn ltac:(lia)) as (p & q & G & P & Q & qp & pq & D & B & C & _).
      unfold keyAt, permAt. rewrite G, (posOf_spec _ p q) by assumption. unfold elemOK. cbn [fst snd]. rewrite !map_length, seq_length.
      split; [reflexivity|]. split; [reflexivity|]. destruct Q as [Q1 Q2]. split; [split|split].
      * intros i Hi. rewrite lnth_seq by assumption. apply Q1. assumption.
      * intros i j Hi Hj. rewrite !lnth_seq by assumption. apply Q2; assumption.
      * intros _. rewrite lnth_seq by assumption. assumption.
      * intros i Hi. rewrite !lnth_seq by lia. apply C. assumption.
    + apply el_ok in I. destruct e as [ol ql]. destruct I as (L1 & L2 & P & B & C). cbn [fst snd] in *. apply in_map_iff.
      destruct (perm_inverse dim (lnth ql) P) as (p & Pp & PQ & QP).
      assert (D : decr dim (lnth ol)) by (intros i Hi; specialize (C i Hi); destruct (lnth ql i <? lnth ql (S i))%nat; lia).
      destruct (elem_find dim n (lnth ol) p (lnth ql) Hd Hn Pp P QP PQ D (B Hd) C) as (k & Hk & A & p' & G & Ap).
      exists k. split; [|apply in_seq; lia]. destruct (elem_spec dim n k Hd Hn Hk) as (p1 & q1 & G1 & P1 & Q1 & qp1 & pq1 & _).
      assert (p1 = p') by congruence. subst p1.
      unfold keyAt, permAt. rewrite G, (posOf_spec _ p' q1) by assumption. f_equal.
      * rewrite (lnth_eta ol dim L1). apply map_ext_in. intros i I. apply in_seq in I. apply A. lia.
      * rewrite (lnth_eta ql dim L2). apply map_ext_in. intros i I. apply in_seq in I.
        apply (inv_agree dim q1 p' (lnth ql) p Q1 P pq1 qp1 PQ QP Ap). lia.
Qed.

Lemma r2k_Yc : forall dim p q x i, isPerm dim p -> isPerm dim q -> (forall i, (i < dim)%nat -> p (q i) = i) -> (i < dim)%nat ->
  referenceToKuhn Rplus dim x p i = Yc dim (fun i => x (p i)) (q i).
Proof. intros dim p q x i P Q PQ Hi. rewrite <- (PQ i Hi) at 1. apply (r2k_tail dim p x (q i) P). apply (proj1 Q). assumption. Qed.
Lemma r2k_id_Yc : forall dim x i, (i < dim)%nat -> K0 dim x i = Yc dim x i.
Proof. intros. unfold K0. apply (r2k_Yc dim idp idp x i); auto using isPerm_id. Qed.
Lemma pf_k2r : forall dim i, (i < dim)%nat -> polyf dim (fun x => kuhnToReference Rminus dim x idp i).
Proof.
  intros dim i Hi. destruct (affdet_k2r dim idp (isPerm_id dim)) as (c & M & E & _).
  apply (pf_ext dim (fun x => c i + rsum dim (fun j => x j * M j i))); [|intros; apply E; assumption].
  apply (pf_plus dim (fun _ => c i) (fun x => rsum dim (fun j => x j * M j i))); [apply pf_const|].
  apply (pf_rsum dim dim (fun j x => x j * M j i)). intros j Hj. apply (pf_mult dim (fun x => x j) (fun _ => M j i)); [apply pf_coord; assumption|apply pf_const].
Qed.
Theorem refine_integral : forall dim n f, (0 < dim)%nat -> (0 < n)%nat -> polyf dim f ->
  rsum (n ^ dim) (fun k => SI dim (fun x => f (Gmap dim (permAt dim n k) (se_origin (elemAt dim n k)) n x))) = INR n ^ dim * SI dim f.
Proof.
  intros dim n f Hd Hn Hf.
  assert (N0 : INR n <> 0) by (apply not_0_INR; lia).
  set (g := fun v : Vec => f (kuhnToReference Rminus dim (fun i => v i / INR n) idp)).
  assert (Hg : polyf dim g).
  { assert (H1 : polyf dim (fun v => f (kuhnToReference Rminus dim v idp))) by (apply (pf_comp dim dim f (fun v => kuhnToReference Rminus dim v idp) Hf); intros; apply pf_k2r; assumption).
    apply (pf_comp dim dim _ (fun v i => v i / INR n) H1). intros i Hi. apply (pf_ext dim (fun x => / INR n * x i)); [apply (pf_scal dim (fun x => x i)), pf_coord; assumption|].
    intros. unfold Rdiv. ring. }
  assert (K2 : forall v w, agree dim v w -> f (kuhnToReference Rminus dim v idp) = f (kuhnToReference Rminus dim w idp)).
  { intros v w A. apply (pf_agree dim f); [assumption|]. apply (affdet_agree dim _ 1 v w (affdet_k2r dim idp (isPerm_id dim)) A). }
  transitivity (rsum (n ^ dim) (fun k => elemInt dim g (keyAt dim n k))).
  - apply rsum_ext. intros k Hk. destruct (elem_spec dim n k Hd Hn Hk) as (p & q & G & P & Q & qp & pq & _).
    unfold keyAt, permAt. rewrite G, (posOf_spec _ p q) by assumption. unfold elemInt, KI. cbn [fst snd].
    set (h := fun x : Vec => g (fun i => INR (lnth (map (se_origin (elemAt dim n k)) (seq 0 dim)) i) + Yc dim x (lnth (map q (seq 0 dim)) i))).
    rewrite <- (SI_perm dim p q h P Q pq).
    + apply SI_ext. intros x. unfold h, g, Gmap. apply K2. intros i Hi. rewrite !lnth_seq by assumption.
      rewrite (r2k_Yc dim p q x i P Q pq Hi). unfold Rdiv. ring.
    + unfold h. apply (pf_comp dim dim g (fun x i => INR (lnth (map (se_origin (elemAt dim n k)) (seq 0 dim)) i) + Yc dim x (lnth (map q (seq 0 dim)) i)) Hg).
      intros i Hi. apply (pf_plus dim (fun _ => INR (lnth (map (se_origin (elemAt dim n k)) (seq 0 dim)) i)) (fun x => Yc dim x (lnth (map q (seq 0 dim)) i))); [apply pf_const|].
      apply pf_Yc. rewrite lnth_seq by assumption. apply (proj1 Q). assumption.
  - rewrite <- lsumR_seq, <- lsumR_map, (lsumR_perm _ _ _ (keys_perm dim n Hd Hn)), (tiling_sum n dim g Hn Hg). f_equal.
    unfold KI. apply SI_ext. intros x. unfold g. transitivity (f (kuhnToReference Rminus dim (K0 dim x) idp)).
    + apply K2. intros i Hi. rewrite r2k_id_Yc by assumption. field. assumption.
    + unfold K0. rewrite k2r_r2k by apply isPerm_id. reflexivity.
Qed.
