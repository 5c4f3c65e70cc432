(** Proofs about rules as numpy arrays, and about the number of points of a rule. *)
From Coq Require Import NArith ZArith QArith PeanoNat Bool List Lia Reals Lra.
From Verif Require Import M_Type M_TypeIndex M_RefGeo M_QuadFactory M_Quadrature M_Tab M_TabGauss M_PyRules
  S_Quad S_QuadND P_QuadFactory P_QuadAll T_Quad.
Import ListNotations.
Local Open Scope R_scope.

Lemma memory_length d pts : length (memory d pts) = (length pts * qp_size d)%nat.
Proof.
  unfold memory, qp_size. induction pts as [|q pts IH]; cbn [flat_map length Nat.mul]; [reflexivity|].
  rewrite app_length, IH, app_length, map_length, seq_length. reflexivity.
Qed.
Lemma memory_cons d p pts : memory d (p :: pts) = (map (fst p) (seq 0 d) ++ [snd p]) ++ memory d pts.
Proof. reflexivity. Qed.
Lemma memory_nth d pts : forall c q, nth_error pts c = Some q ->
  (forall r, (r < d)%nat -> nth_error (memory d pts) (r + c * qp_size d) = Some (fst q r))
  /\ nth_error (memory d pts) (d + c * qp_size d) = Some (snd q).
Proof.
  induction pts as [|p pts IH]; intros c q H; [destruct c; discriminate|].
  assert (L : length (map (fst p) (seq 0 d) ++ [snd p]) = qp_size d).
  { rewrite app_length, map_length, seq_length. reflexivity. }
  destruct c as [|c]; cbn [nth_error] in H.
  - injection H as <-. cbn [Nat.mul]. rewrite memory_cons. split; [intros r Hr|].
    + rewrite Nat.add_0_r, nth_error_app1 by (rewrite L; unfold qp_size; lia).
      rewrite nth_error_app1 by (now rewrite map_length, seq_length).
      rewrite nth_error_map, (nth_error_nth' _ 0%nat) by (now rewrite seq_length). now rewrite seq_nth.
    + rewrite Nat.add_0_r, nth_error_app1 by (rewrite L; unfold qp_size; lia).
      rewrite nth_error_app2 by (now rewrite map_length, seq_length).
      now rewrite map_length, seq_length, Nat.sub_diag.
  - destruct (IH c q H) as [A B]. rewrite memory_cons. split; [intros r Hr|].
    + rewrite nth_error_app2; rewrite L; [|unfold qp_size; cbn [Nat.mul]; lia].
      replace (r + S c * qp_size d - qp_size d)%nat with (r + c * qp_size d)%nat by (cbn [Nat.mul]; lia). now apply A.
    + rewrite nth_error_app2; rewrite L; [|unfold qp_size; cbn [Nat.mul]; lia].
      replace (d + S c * qp_size d - qp_size d)%nat with (d + c * qp_size d)%nat by (cbn [Nat.mul]; lia). exact B.
Qed.

(** a function of the first [d] coordinates *)
Definition local_fun (d : nat) (f : Vec -> R) : Prop :=
  forall x y, (forall k, (k < d)%nat -> x k = y k) -> f x = f y.

Lemma fold_quad (g : Vec -> R) : forall pts k s (term : nat -> R),
  (forall c q, nth_error pts c = Some q -> term (k + c)%nat = snd q * g (fst q)) ->
  fold_left (fun a c => a + term c) (seq k (length pts)) s = s + quad pts g.
Proof.
  induction pts as [|q pts IH]; intros k s term H; cbn [length seq fold_left quad]; [ring|].
  rewrite (IH (S k) _ term).
  - specialize (H 0%nat q eq_refl). rewrite Nat.add_0_r in H. rewrite H. ring.
  - intros c p Hc. rewrite <- (H (S c) p Hc). f_equal. lia.
Qed.

(** ** Rules are not empty *)
Lemma flat_map_ne {A B C} (g : A -> B -> C) (l : list A) (m : list B) : l <> [] -> m <> [] ->
  flat_map (fun a => map (g a) m) l <> [].
Proof. destruct l as [|a l]; [congruence|]. destruct m as [|b m]; [congruence|]. intros _ _. cbn. discriminate. Qed.

Lemma switchOn_in tab p e : switchOn tab p = Some e -> In e tab.
Proof.
  induction tab as [|a tab IH]; cbn [switchOn]; [discriminate|]. destruct (existsb _ _); [|right; auto].
  intros X. injection X as <-. now left.
Qed.
Lemma gauss_ne p r : tableRule gaussTable p = Some r -> ru_points r <> [].
Proof.
  unfold tableRule. destruct (switchOn gaussTable p) as [e|] eqn:E; [|discriminate]. intros X. injection X as <-. cbn [ru_points].
  assert (A : forallb (fun e => match en_data e with [] => false | _ => true end) gaussTable = true) by (vm_compute; reflexivity).
  rewrite forallb_forall in A. assert (I : In e gaussTable).
  { apply (switchOn_in _ _ _ E). }
  specialize (A e I). destruct (en_data e); [discriminate|]. cbn. discriminate.
Qed.

Lemma factory_ne lapack dim : forall t p r, factory lapack dim t p qtLegendre = Some r -> ru_points r <> [].
Proof.
  assert (F1 : forall p o, fetch1D lapack p qtLegendre = Some o -> ru_points o <> []).
  { intros p o. unfold fetch1D. destruct (inRange _ _ _ _); [|discriminate]. apply gauss_ne. }
  induction dim as [|[|d] IH]; intros t p r.
  - cbn [factory choose]. destruct (isVertex t); [|discriminate]. intros X. injection X as <-. discriminate.
  - cbn [factory choose]. destruct (isLine t); [|discriminate]. cbn [Nat.ltb Nat.leb qtLegendre qtSize]. apply gauss_ne.
  - assert (TP : tensorPart lapack d t p qtLegendre = Some r -> ru_points r <> []).
    { unfold tensorPart. destruct (inRange _ _ _ _); [|discriminate].
      destruct (factory lapack (S d) _ p qtLegendre) as [b|] eqn:B; [|discriminate]. apply IH in B.
      destruct (tpPrism _ _).
      - destruct (fetch1D lapack p qtLegendre) as [o|] eqn:O; [|discriminate]. intros X. injection X as <-. cbn [ru_points].
        apply flat_map_ne; [exact B|now apply F1 in O].
      - change (Nat.eqb qtLegendre qtJacobiN) with false. cbv iota.
        destruct (fetch1D lapack (p + Z.of_nat (S d)) qtLegendre) as [o|] eqn:O; [|discriminate]. intros X. injection X as <-. cbn [ru_points].
        apply flat_map_ne; [exact B|now apply F1 in O]. }
    assert (M1 : triangleM p <> 0%nat).
    { unfold triangleM. repeat (match goal with |- context [match ?x with _ => _ end] => destruct x end; try discriminate). }
    assert (M2 : tetrahedronM p <> 0%nat).
    { unfold tetrahedronM. repeat (match goal with |- context [match ?x with _ => _ end] => destruct x end; try discriminate). }
    assert (ST : forall t s m, m <> 0%nat -> ru_points (storeRule t s m) <> []).
    { intros t0 s m Hm. destruct m; [congruence|]. cbn. discriminate. }
    rewrite factory_SS, choose_SS. destruct d as [|[|d]].
    + destruct (isSimplex t && _ && _); [|exact TP]. cbn [simplexRule]. destruct (highestTriangle <? p)%Z; [discriminate|].
      intros X. injection X as <-. now apply ST.
    + destruct (isSimplex t && _ && _).
      { cbn [simplexRule]. destruct (highestTetrahedron <? p)%Z; [discriminate|]. intros X. injection X as <-. now apply ST. }
      destruct (isPrismT t && _ && _); [|exact TP]. intros X. injection X as <-. unfold prismRule. now apply ST.
    + exact TP.
Qed.
