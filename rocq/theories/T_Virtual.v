(** C54, C55: virtual refinement. *)
From Coq Require Import NArith PeanoNat Bool List Lia.
From Verif Require Import M_Type P_Type M_Virtual S_Virtual P_Virtual.
Import ListNotations.

(** ** C54 *)
Section C54.
Variables (Kind St : Type) (kind_eqb : Kind -> Kind -> bool) (step : Kind -> St -> St) (same : Kind -> St -> St -> bool) (indexOf : Kind -> St -> nat).
Notation run := (run Kind St kind_eqb step same indexOf).
Notation exec := (exec Kind St kind_eqb step same indexOf).
Notation vrun := (vrun Kind St kind_eqb step same indexOf).
Notation empty := (emptyMem Kind St).
Notation load := (load Kind St).
Notation vm_var := (vm_var Kind St).

(** a program is executed without touching a deleted object exactly if it is legal; it then
    prints what it would print if the variables held the values themselves *)
Theorem C54_safe : forall os, run empty os <> None <-> legal Kind St (fun _ => false) os = true.
Proof.
  intros os. pose proof (run_sim Kind St kind_eqb step same indexOf os empty (fun _ => None) (rel_empty Kind St)) as S.
  rewrite (legal_vrun Kind St kind_eqb step same indexOf os _ (fun _ => None)) by reflexivity.
  destruct (vrun (fun _ => None) os) as [[e rs]|].
  - destruct S as (m & -> & _). split; [reflexivity|discriminate].
  - rewrite S. split; [congruence|discriminate].
Qed.
Theorem C54_values : forall os m rs, run empty os = Some (m, rs) ->
  exists e, vrun (fun _ => None) os = Some (e, rs)
    /\ forall x, match vm_var m x with Some p => load m p = e x /\ e x <> None | None => e x = None end.
Proof.
  intros os m rs E. pose proof (run_sim Kind St kind_eqb step same indexOf os empty (fun _ => None) (rel_empty Kind St)) as S.
  destruct (vrun (fun _ => None) os) as [[e rs']|]; [|congruence]. destruct S as (m' & E' & R1 & _). rewrite E in E'. injection E' as <- <-.
  exists e. split; [reflexivity|]. intros x. specialize (R1 x). destruct (vm_var m x); [destruct R1; split; assumption|assumption].
Qed.
(** every object that has not been deleted belongs to exactly one iterator *)
Theorem C54_no_leak : forall os m rs, run empty os = Some (m, rs) ->
  forall p b, load m p = Some b -> exists x, vm_var m x = Some p /\ forall y, vm_var m y = Some p -> y = x.
Proof.
  intros os m rs E p b L. pose proof (run_sim Kind St kind_eqb step same indexOf os empty (fun _ => None) (rel_empty Kind St)) as S.
  destruct (vrun (fun _ => None) os) as [[e rs']|]; [|congruence]. destruct S as (m' & E' & _ & R2 & R3). rewrite E in E'. injection E' as <- <-.
  destruct (R3 p b L) as (x & X). exists x. split; [assumption|]. intros y Y. exact (R2 y x p Y X).
Qed.
Theorem C54_all_freed : forall os m rs, run empty os = Some (m, rs) -> (forall x, vm_var m x = None) -> forall p, load m p = None.
Proof.
  intros os m rs E H p. destruct (load m p) as [b|] eqn:L; [|reflexivity]. destruct (C54_no_leak os m rs E p b L) as (x & X & _). rewrite H in X. discriminate.
Qed.
(** an iterator is not changed by operations on others, copies of it included *)
Theorem C54_independent : forall os os' m rs m' rs' y, run empty os = Some (m, rs) -> run m os' = Some (m', rs') ->
  (forall o, In o os' -> touches Kind St y o = false) ->
  match vm_var m y, vm_var m' y with Some p, Some p' => load m' p' = load m p | None, None => True | _, _ => False end.
Proof.
  intros os os' m rs m' rs' y E E' H. pose proof (run_sim Kind St kind_eqb step same indexOf os empty (fun _ => None) (rel_empty Kind St)) as S.
  destruct (vrun (fun _ => None) os) as [[e rs0]|]; [|congruence]. destruct S as (m0 & E0 & R). rewrite E in E0. injection E0 as <- <-.
  pose proof (run_sim Kind St kind_eqb step same indexOf os' m e R) as S. destruct (vrun e os') as [[e' rs1]|] eqn:V; [|congruence].
  destruct S as (m1 & E1 & R'). rewrite E' in E1. injection E1 as <- <-.
  pose proof (vrun_untouched Kind St kind_eqb step same indexOf os' e e' rs' y V H) as U. destruct R as (R1 & _). destruct R' as (R1' & _).
  specialize (R1 y). specialize (R1' y). destruct (vm_var m y) as [p|], (vm_var m' y) as [p'|]; try (destruct R1; destruct R1'; congruence); exact I.
Qed.
(** a fresh copy or the target of an assignment compares equal to its source *)
Theorem C54_copy_equal : forall os m rs o x y m' r, (forall k s, same k s s = true) -> (forall k, kind_eqb k k = true) ->
  run empty os = Some (m, rs) -> o = OCopy Kind St x y \/ o = OAssign Kind St x y -> exec m o = Some (m', r) ->
  op_equals Kind St kind_eqb same m' x y = Some true /\ x <> y.
Proof.
  intros os m rs o x y m' r HS HK E Ho X. pose proof (run_sim Kind St kind_eqb step same indexOf os empty (fun _ => None) (rel_empty Kind St)) as S.
  destruct (vrun (fun _ => None) os) as [[e rs0]|]; [|congruence]. destruct S as (m0 & E0 & R). rewrite E in E0. injection E0 as <- <-.
  assert (N : exists b, e y = Some b /\ x <> y /\ vexec Kind St kind_eqb step same indexOf e o = Some (upd Kind St e x (Some b), ONone)).
  { pose proof (exec_sim Kind St kind_eqb step same indexOf m e o R) as Q. destruct Ho as [-> | ->]; cbn [vexec] in *.
    - destruct (e x) eqn:Ex; [congruence|]. destruct (e y) as [b|] eqn:Ey; [|congruence]. exists b. split; [reflexivity|]. split; [congruence|reflexivity].
    - destruct (e x) eqn:Ex; [|congruence]. destruct (e y) as [b'|] eqn:Ey; [|congruence]. destruct (Nat.eqb_spec x y); [congruence|].
      exists b'. split; [reflexivity|]. split; [assumption|reflexivity]. }
  destruct N as (b & Ey & N & V). pose proof (exec_sim Kind St kind_eqb step same indexOf m e o R) as Q. rewrite V in Q. destruct Q as (m1 & X1 & R'). rewrite X in X1. injection X1 as <- _.
  pose proof (exec_sim Kind St kind_eqb step same indexOf m' _ (OEquals Kind St x y) R') as Q. cbn [vexec] in Q. unfold upd in Q. rewrite Nat.eqb_refl in Q.
  destruct (Nat.eqb_spec y x); [congruence|]. rewrite Ey in Q. destruct b as [k s]. rewrite HK, HS in Q. destruct Q as (m2 & Q & _). cbn [M_Virtual.exec andb] in Q.
  split; [|assumption]. destruct (op_equals Kind St kind_eqb same m' x y); [|discriminate]. cbn in Q. congruence.
Qed.
(** iterators of different refinements are different *)
Theorem C54_different_refinements : forall m x y p q a b, vm_var m x = Some p -> vm_var m y = Some q -> load m p = Some a -> load m q = Some b ->
  kind_eqb (bk_kind Kind St a) (bk_kind Kind St b) = false -> op_equals Kind St kind_eqb same m x y = Some false.
Proof. intros m x y p q a b X Y A B K. unfold op_equals. rewrite X, Y. cbn [bind]. rewrite A, B. cbn [bind]. rewrite K. reflexivity. Qed.
(** it = it reads the object it has just deleted, whatever happened before *)
Theorem C54_self_assignment : forall m x, op_assign Kind St m x x = None.
Proof.
  intros m x. unfold op_assign. destruct (vm_var m x) as [p|]; [|reflexivity]. cbn [bind]. unfold free. destruct (load m p) as [b|] eqn:L; [|reflexivity]. cbn [bind].
  rewrite load_set by exact (load_lt _ _ _ _ _ L). rewrite Nat.eqb_refl. reflexivity.
Qed.
(** if clone() throws in an assignment the iterator is left with a pointer to the deleted
    object, and its destructor deletes that again *)
Theorem C54_assignment_throws : forall os m rs x y m', run empty os = Some (m, rs) -> op_assign_throw Kind St m x y = Some m' -> op_destroy Kind St m' x = None.
Proof.
  intros os m rs x y m' E H. unfold op_assign_throw in H. destruct (vm_var m x) as [p|] eqn:X; [|discriminate]. cbn [bind] in H.
  destruct (vm_var m y) as [q|]; [|discriminate]. cbn [bind] in H. unfold free in H. destruct (load m p) as [b|] eqn:L; [|discriminate]. cbn [bind] in H.
  destruct (load (mkMem Kind St (setNth (M_Virtual.vm_heap Kind St m) p None) (vm_var m)) q); [|discriminate]. cbn [bind] in H. injection H as <-.
  unfold op_destroy. cbn [M_Virtual.vm_var]. rewrite X. cbn [bind]. unfold free. rewrite load_set by exact (load_lt _ _ _ _ _ L). rewrite Nat.eqb_refl. reflexivity.
Qed.
End C54.
Print Assumptions C54_safe.
Print Assumptions C54_values.
Print Assumptions C54_no_leak.
Print Assumptions C54_all_freed.
Print Assumptions C54_independent.
Print Assumptions C54_copy_equal.
Print Assumptions C54_different_refinements.
Print Assumptions C54_self_assignment.
Print Assumptions C54_assignment_throws.

(** two refinements (kinds 0 and 1), iterators that count *)
Example C54_example :
  let exec := fun os => option_map snd (run nat nat Nat.eqb (fun _ => S) (fun _ => Nat.eqb) (fun _ s => s) (emptyMem nat nat) os) in
  let make := fun x k => OMake nat nat x (mkBack nat nat k 5) in
  exec [make 0 0; OCopy _ _ 1 0; OIncrement _ _ 0; OIndex _ _ 0; OIndex _ _ 1; OEquals _ _ 0 1; OAssign _ _ 1 0; OEquals _ _ 0 1; ODestroy _ _ 0; OIndex _ _ 1]
    = Some [ONone; ONone; ONone; ONat 6; ONat 5; OBool false; ONone; OBool true; ONone; ONat 6]
  /\ exec [make 0 0; make 1 1; OEquals _ _ 0 1] = Some [ONone; ONone; OBool false]
  /\ exec [make 0 0; OAssign _ _ 0 0] = None.
Proof. repeat split. Qed.

(** ** C55 *)
Lemma clear1_sh1 : forall a, clear1 a = N.double (sh1 a).
Proof. intros [|[p|p|]]; reflexivity. Qed.
Lemma clear1_eqb : forall a b, N.eqb (clear1 a) (clear1 b) = N.eqb (sh1 a) (sh1 b).
Proof.
  intros a b. rewrite !clear1_sh1, !N.double_spec. destruct (N.eqb_spec (sh1 a) (sh1 b)) as [->|N]; [apply N.eqb_refl|]. apply N.eqb_neq. lia.
Qed.
Lemma clear1_zero : forall a, N.eqb (clear1 a) 0 = N.eqb (sh1 a) 0.
Proof. intros a. exact (clear1_eqb a 0). Qed.
Lemma clear1_clear1 : forall a, sh1 (clear1 a) = sh1 a.
Proof. intros [|[p|p|]]; reflexivity. Qed.
Lemma cube_sh1 : forall dim, 2 <= dim -> sh1 (gt_id (cube dim)) <> 0%N.
Proof.
  intros dim H. unfold cube, GT3, gt_id. destruct (Nat.ltb_spec 1 dim); [|lia]. unfold sh1. rewrite bit_pow.
  intros E. pose proof (N.div_mod (2 ^ N.of_nat dim - 1) 2 ltac:(lia)) as D. rewrite <- N.div2_spec, <- N.shiftr_spec' in * || idtac.
  rewrite N.shiftr_div_pow2 in E. change (2 ^ 1)%N with 2%N in E. rewrite E in D.
  assert (M : ((2 ^ N.of_nat dim - 1) mod 2 < 2)%N) by (apply N.mod_lt; lia).
  assert (2 ^ 2 <= 2 ^ N.of_nat dim)%N by (apply N.pow_le_mono_r; lia). cbn in H1. lia.
Qed.

(** the pairs of types with a refinement, up to == *)
Definition supported (dim : nat) (t c : GeometryType) : bool :=
  (gt_eqb t (simplex dim) && gt_eqb c (simplex dim))
  || (gt_eqb t (cube dim) && (gt_eqb c (simplex dim) || gt_eqb c (cube dim)))
  || (Nat.eqb dim 3 && gt_eqb c (simplex 3) && (gt_eqb t prism || gt_eqb t pyramid)).

Section C55.
Variables (dim : nat) (t c : GeometryType).
Hypothesis Hd : 1 <= dim <= 31.
Hypothesis Ht : gt_none t = false /\ gt_dim t = dim.
Hypothesis Hc : gt_none c = false /\ gt_dim c = dim.

Lemma eqb_sh1 : forall a b, gt_none a = false -> gt_none b = false -> gt_dim a = gt_dim b -> gt_eqb a b = N.eqb (sh1 (gt_id a)) (sh1 (gt_id b)).
Proof. intros a b A B D. unfold gt_eqb. rewrite A, B, D, Nat.eqb_refl. reflexivity. Qed.
Lemma dim_uchar : to_uchar dim = dim.
Proof. unfold to_uchar. apply Nat.mod_small. lia. Qed.
Lemma simplexP : forall a, gt_none a = false -> gt_dim a = dim -> gt_eqb a (simplex dim) = N.eqb (sh1 (gt_id a)) 0.
Proof. intros a A D. rewrite eqb_sh1; [reflexivity|assumption|reflexivity|]. cbn [simplex GT3 gt_dim]. rewrite dim_uchar. assumption. Qed.
Lemma cubeP : forall a, gt_none a = false -> gt_dim a = dim -> gt_eqb a (cube dim) = N.eqb (sh1 (gt_id a)) (sh1 (gt_id (cube dim))).
Proof. intros a A D. rewrite eqb_sh1; [reflexivity|assumption|reflexivity|]. cbn [cube GT3 gt_dim]. rewrite dim_uchar. assumption. Qed.
Lemma namedP : forall a b, dim = 3 -> gt_none a = false -> gt_dim a = dim -> gt_none b = false -> gt_dim b = 3 -> gt_eqb a b = N.eqb (sh1 (gt_id a)) (sh1 (gt_id b)).
Proof. intros a b E A D B D'. apply eqb_sh1; congruence. Qed.

(** an instance for the pair (up to ==) for exactly these pairs *)
Theorem C55_dispatch :
  (supported dim t c = true -> exists i, buildRefinement dim t c = Some (BInstance i) /\ vr_dim i = dim
     /\ gt_eqb (GT2 (vr_topology i) dim) t = true /\ gt_eqb (GT2 (vr_coerce i) dim) c = true)
  /\ (supported dim t c = false -> buildRefinement dim t c = Some BNotImplemented).
Proof.
  destruct Ht as [Nt Dt]. destruct Hc as [Nc Dc].
  assert (G : forall x, sh1 x = sh1 (gt_id t) -> gt_eqb (GT2 (clear1 x) dim) t = true).
  { intros x E. rewrite eqb_sh1; [|reflexivity|assumption|cbn [GT2 gt_dim]; rewrite dim_uchar; congruence]. cbn [GT2 gt_id]. rewrite clear1_clear1, E. apply N.eqb_refl. }
  assert (G' : forall x, sh1 x = sh1 (gt_id c) -> gt_eqb (GT2 (clear1 x) dim) c = true).
  { intros x E. rewrite eqb_sh1; [|reflexivity|assumption|cbn [GT2 gt_dim]; rewrite dim_uchar; congruence]. cbn [GT2 gt_id]. rewrite clear1_clear1, E. apply N.eqb_refl. }
  unfold buildRefinement. rewrite Dt, Dc, Nat.eqb_refl. cbn [andb].
  assert (GEN : dim <> 1 -> dim <> 3 ->
    (supported dim t c = true -> exists i, build_general dim (gt_id t) (gt_id c) = BInstance i /\ vr_dim i = dim
       /\ gt_eqb (GT2 (vr_topology i) dim) t = true /\ gt_eqb (GT2 (vr_coerce i) dim) c = true)
    /\ (supported dim t c = false -> build_general dim (gt_id t) (gt_id c) = BNotImplemented)).
  { intros N1 N3. pose proof (cube_sh1 dim ltac:(lia)) as K. unfold supported. rewrite !simplexP, !cubeP by assumption. destruct (Nat.eqb_spec dim 3); [lia|]. cbn [andb]. rewrite orb_false_r.
    unfold build_general, idSimplex, idCube. rewrite !clear1_eqb. change (sh1 (gt_id (simplex dim))) with 0%N.
    destruct (N.eqb_spec (sh1 (gt_id t)) 0) as [Z|Z].
    - destruct (N.eqb_spec (sh1 (gt_id t)) (sh1 (gt_id (cube dim)))) as [Z'|_]; [congruence|]. cbn [andb orb]. rewrite orb_false_r.
      destruct (N.eqb_spec (sh1 (gt_id c)) 0) as [Y|Y]; (split; [intros Q; try discriminate Q|intros Q; try discriminate Q; reflexivity]).
      eexists. split; [reflexivity|]. cbn [vr_dim vr_topology vr_coerce]. split; [reflexivity|]. split; [apply G; rewrite Z; reflexivity|apply G'; rewrite Y; reflexivity].
    - cbn [andb orb]. destruct (N.eqb_spec (sh1 (gt_id t)) (sh1 (gt_id (cube dim)))) as [Z'|Z']; cbn [andb]; [|split; [discriminate|reflexivity]].
      destruct (N.eqb_spec (sh1 (gt_id c)) 0) as [Y|Y]; cbn [orb].
      + split; [intros _|discriminate]. eexists. split; [reflexivity|]. cbn [vr_dim vr_topology vr_coerce]. split; [reflexivity|].
        split; [apply G; symmetry; assumption|apply G'; rewrite Y; reflexivity].
      + destruct (N.eqb_spec (sh1 (gt_id c)) (sh1 (gt_id (cube dim)))) as [Y'|Y']; split; try discriminate; try reflexivity. intros _.
        eexists. split; [reflexivity|]. cbn [vr_dim vr_topology vr_coerce]. split; [reflexivity|]. split; [apply G; symmetry; assumption|apply G'; symmetry; assumption]. }
  destruct (Nat.eq_dec dim 1) as [E1|N1].
  { unfold supported. rewrite !simplexP, !cubeP by assumption. rewrite E1. change (sh1 (gt_id (cube 1))) with 0%N. cbn [Nat.eqb andb]. rewrite orb_false_r.
    unfold build_one. rewrite !clear1_zero.
    destruct (N.eqb_spec (sh1 (gt_id t)) 0) as [Z|Z]; cbn [andb orb]; [|split; [discriminate|reflexivity]].
    destruct (N.eqb_spec (sh1 (gt_id c)) 0) as [Y|Y]; cbn [andb orb]; [|split; [discriminate|reflexivity]]. split; [intros _|discriminate].
    eexists. split; [reflexivity|]. cbn [vr_dim vr_topology vr_coerce]. split; [reflexivity|]. rewrite <- E1. split; [apply G; rewrite Z; reflexivity|apply G'; rewrite Y; reflexivity]. }
  destruct (Nat.eq_dec dim 3) as [E3|N3].
  { unfold supported. rewrite !simplexP, !cubeP by assumption. rewrite !(namedP t) by (try assumption; reflexivity).
    replace (gt_eqb c (simplex 3)) with (N.eqb (sh1 (gt_id c)) 0) by (rewrite <- E3; symmetry; apply simplexP; assumption).
    rewrite E3 in *. cbn [Nat.eqb andb]. unfold build_three, idSimplex, idCube, idPrism, idPyramid. rewrite !clear1_eqb. change (sh1 (gt_id (simplex 3))) with 0%N.
    change (sh1 (gt_id (cube 3))) with 3%N in *. change (sh1 (gt_id prism)) with 2%N in *. change (sh1 (gt_id pyramid)) with 1%N in *.
    destruct (N.eqb_spec (sh1 (gt_id t)) 0) as [Z|Z]; [|destruct (N.eqb_spec (sh1 (gt_id t)) 3) as [Z'|Z']; [|destruct (N.eqb_spec (sh1 (gt_id t)) 2) as [Z2|Z2]; [|destruct (N.eqb_spec (sh1 (gt_id t)) 1) as [Z1|Z1]]]].
    - rewrite Z. cbn [N.eqb andb orb]. destruct (N.eqb_spec (sh1 (gt_id c)) 0) as [Y|Y]; cbn [andb orb]; split; try discriminate; try reflexivity. intros _.
      eexists. split; [reflexivity|]. cbn [vr_dim vr_topology vr_coerce]. split; [reflexivity|]. split; [apply G; rewrite Z; reflexivity|apply G'; rewrite Y; reflexivity].
    - rewrite Z'. cbn [N.eqb Pos.eqb andb orb]. destruct (N.eqb_spec (sh1 (gt_id c)) 0) as [Y|Y]; cbn [andb orb].
      + split; [intros _|discriminate]. eexists. split; [reflexivity|]. cbn [vr_dim vr_topology vr_coerce]. split; [reflexivity|].
        split; [apply (G (gt_id (cube 3))); rewrite Z'; reflexivity|apply (G' 0%N); rewrite Y; reflexivity].
      + destruct (N.eqb_spec (sh1 (gt_id c)) 3) as [Y'|Y']; split; try discriminate; try reflexivity. intros _.
        eexists. split; [reflexivity|]. cbn [vr_dim vr_topology vr_coerce]. split; [reflexivity|].
        split; [apply (G (gt_id (cube 3))); rewrite Z'; reflexivity|apply (G' (gt_id (cube 3))); rewrite Y'; reflexivity].
    - try rewrite Z2. cbn [N.eqb Pos.eqb andb orb]. destruct (N.eqb_spec (sh1 (gt_id c)) 0) as [Y|Y]; cbn [andb orb]; split; try discriminate; try reflexivity. intros _.
      eexists. split; [reflexivity|]. cbn [vr_dim vr_topology vr_coerce]. split; [reflexivity|]. split; [apply (G (gt_id prism)); rewrite Z2; reflexivity|apply (G' 0%N); rewrite Y; reflexivity].
    - cbn [N.eqb Pos.eqb andb orb]. destruct (N.eqb_spec (sh1 (gt_id c)) 0) as [Y|Y]; cbn [andb orb]; split; try discriminate; try reflexivity. intros _.
      eexists. split; [reflexivity|]. cbn [vr_dim vr_topology vr_coerce]. split; [reflexivity|]. split; [apply (G (gt_id pyramid)); rewrite Z1; reflexivity|apply (G' 0%N); rewrite Y; reflexivity].
    - cbn [andb orb]. rewrite andb_false_r. split; [discriminate|reflexivity]. }
  specialize (GEN N1 N3). destruct dim as [|[|[|[|d]]]]; try lia.
  - destruct GEN as [A B]. split; [intros Q; destruct (A Q) as (i & E & R); exists i; rewrite E; split; [reflexivity|exact R]|intros Q; rewrite (B Q); reflexivity].
  - destruct GEN as [A B]. split; [intros Q; destruct (A Q) as (i & E & R); exists i; rewrite E; split; [reflexivity|exact R]|intros Q; rewrite (B Q); reflexivity].
Qed.

(** exactly one specialisation of Traits is enabled for an instance, the one for the pair *)
Definition wanted (dim : nat) (t c : GeometryType) : Impl :=
  if gt_eqb t (simplex dim) then ISimplex
  else if gt_eqb t (cube dim) then (if gt_eqb c (cube dim) then IHCube else IHCubeTriangulation)
  else if gt_eqb t prism then IPrismTriangulation else IPyramidTriangulation.
Theorem C55_implementation : forall i, buildRefinement dim t c = Some (BInstance i) ->
  forall im, enabled im (vr_topology i) (vr_coerce i) (vr_dim i) = true <-> im = wanted dim t c.
Proof.
  intros i E. destruct C55_dispatch as [A B]. destruct (supported dim t c) eqn:S; [|rewrite B in E by reflexivity; discriminate].
  destruct (A eq_refl) as (i' & E' & D & T1 & T2). rewrite E in E'. injection E' as <-. destruct Ht as [Nt Dt]. destruct Hc as [Nc Dc].
  rewrite eqb_sh1 in T1, T2; [|reflexivity|assumption|cbn [GT2 gt_dim]; rewrite dim_uchar; congruence|reflexivity|assumption|cbn [GT2 gt_dim]; rewrite dim_uchar; congruence].
  cbn [GT2 gt_id] in T1, T2. apply N.eqb_eq in T1, T2. rewrite D.
  assert (EN : forall im, enabled im (vr_topology i) (vr_coerce i) dim = enabled im (gt_id t) (gt_id c) dim).
  { intros im. destruct im; unfold enabled; rewrite T1, T2; reflexivity. }
  clear A B E. revert S. unfold supported, wanted. rewrite !simplexP, !cubeP by assumption.
  destruct (Nat.eqb_spec dim 3) as [E3|N3].
  - rewrite !(namedP t) by (try assumption; reflexivity).
    replace (gt_eqb c (simplex 3)) with (N.eqb (sh1 (gt_id c)) 0) by (rewrite <- E3; symmetry; apply simplexP; assumption).
    intros S im. rewrite EN. unfold enabled. rewrite E3 in *. change (sh1 (gt_id (simplex 3))) with 0%N. cbn [Nat.leb Nat.eqb andb] in *.
    change (sh1 (gt_id (cube 3))) with 3%N in *. change (sh1 (gt_id prism)) with 2%N in *. change (sh1 (gt_id pyramid)) with 1%N in *.
    revert S. generalize (sh1 (gt_id t)) (sh1 (gt_id c)). intros a b.
    rewrite (N.eqb_sym a), (N.eqb_sym b), !(N.eqb_sym a), !(N.eqb_sym b).
    destruct (N.eqb_spec 0 a); [subst a|]; [|destruct (N.eqb_spec 3 a); [subst a|destruct (N.eqb_spec 2 a); [subst a|destruct (N.eqb_spec 1 a); [subst a|]]]];
      (destruct (N.eqb_spec 0 b); [subst b|destruct (N.eqb_spec 3 b); [subst b|]]); cbn [N.eqb Pos.eqb andb orb]; intros S; try discriminate S; destruct im; cbn; intuition (try congruence; try discriminate).
  - cbn [andb]. rewrite orb_false_r. intros S im. rewrite EN. unfold enabled. change (sh1 (gt_id (simplex dim))) with 0%N. change (sh1 (gt_id (simplex 3))) with 0%N.
    destruct (Nat.eqb_spec dim 3); [lia|]. cbn [andb].
    assert (K : 2 <= dim -> sh1 (gt_id (cube dim)) <> 0%N) by apply cube_sh1. assert (K1 : dim = 1 -> sh1 (gt_id (cube dim)) = 0%N) by (intros ->; reflexivity).
    revert S. generalize (sh1 (gt_id t)) (sh1 (gt_id c)). intros a b. generalize dependent (sh1 (gt_id (cube dim))). intros q K K1.
    destruct (Nat.leb_spec 2 dim) as [L|L].
    + specialize (K L). destruct (N.eqb_spec a 0), (N.eqb_spec a q), (N.eqb_spec b 0), (N.eqb_spec b q), (N.eqb_spec 0 a), (N.eqb_spec q a), (N.eqb_spec 0 b), (N.eqb_spec q b);
        try congruence; cbn [andb orb]; intros S; try discriminate S; destruct im; cbn; intuition (try congruence; try discriminate).
    + specialize (K1 ltac:(lia)). subst q. cbn [andb]. rewrite (N.eqb_sym 0 a), (N.eqb_sym 0 b).
      destruct (N.eqb_spec a 0), (N.eqb_spec b 0); cbn [andb orb]; intros S; try discriminate S; destruct im; cbn; intuition (try congruence; try discriminate).
Qed.
End C55.
Print Assumptions C55_dispatch.
Print Assumptions C55_implementation.

(** equal types give the same instance *)
Theorem C55_respects_equality : forall dim t t' c c', gt_none t = false -> gt_none c = false -> gt_eqb t t' = true -> gt_eqb c c' = true ->
  buildRefinement dim t c = buildRefinement dim t' c'.
Proof.
  assert (Q : forall a b, gt_none a = false -> gt_eqb a b = true -> gt_dim a = gt_dim b /\ clear1 (gt_id a) = clear1 (gt_id b)).
  { intros a b A E. unfold gt_eqb in E. rewrite A in E. cbn [orb] in E. apply andb_true_iff in E. destruct E as [_ E]. apply andb_true_iff in E. destruct E as [E1 E2].
    split; [apply Nat.eqb_eq; assumption|]. apply N.eqb_eq in E2. rewrite !clear1_sh1. unfold sh1. rewrite E2. reflexivity. }
  intros dim t t' c c' Nt Nc Et Ec. destruct (Q t t' Nt Et) as [D1 I1]. destruct (Q c c' Nc Ec) as [D2 I2].
  unfold buildRefinement. rewrite D1, D2. destruct (_ && _); [|reflexivity]. f_equal.
  destruct dim as [|[|[|[|d]]]]; unfold build_one, build_three, build_general; rewrite I1, I2; reflexivity.
Qed.
Print Assumptions C55_respects_equality.
(** wrong dimensions trip the assertion *)
Theorem C55_assertion : forall dim t c, buildRefinement dim t c <> None <-> gt_dim t = dim /\ gt_dim c = dim.
Proof.
  intros dim t c. unfold buildRefinement. destruct (Nat.eqb_spec (gt_dim t) dim), (Nat.eqb_spec (gt_dim c) dim); cbn [andb]; intuition congruence.
Qed.
Print Assumptions C55_assertion.
(** the case labels differ, so that the builder compiles for every dimension from 1 on; for
    dimension 0 they do not *)
Theorem C55_labels : forall dim, 1 <= dim -> NoDup (labels dim).
Proof.
  assert (Q : forall dim, 2 <= dim -> idSimplex dim <> idCube dim).
  { intros dim H E. pose proof (cube_sh1 dim H) as K. apply N.eqb_eq in E. unfold idSimplex, idCube in E. rewrite clear1_eqb in E. apply N.eqb_eq in E. apply K. rewrite <- E. reflexivity. }
  assert (G : forall dim, 2 <= dim -> NoDup [idSimplex dim; idCube dim]).
  { intros dim H. constructor; [intros [E|[]]; exact (Q dim H (eq_sym E))|]. constructor; [intros []|constructor]. }
  intros [|[|[|[|d]]]] H; [lia|constructor|apply G; lia| |apply G; lia].
  repeat constructor; cbn; intuition discriminate.
Qed.
Print Assumptions C55_labels.
(** the labels are the topology ids, without their lowest bit, for which there is a refinement *)
Theorem C55_labels_meaning : forall dim v, 2 <= dim -> In v (labels dim) <->
  N.testbit v 0 = false /\ exists c i, buildRefinement dim (mkGT dim false v) (mkGT dim false c) = Some (BInstance i).
Proof.
  assert (C : forall v, clear1 (clear1 v) = clear1 v).
  { intro v. apply N.bits_inj. intro k. unfold clear1. rewrite !N.ldiff_spec. destruct (N.testbit v k), (N.testbit 1 k); reflexivity. }
  assert (Z : forall v, N.testbit (clear1 v) 0 = false) by (intro v; unfold clear1; rewrite N.ldiff_spec; apply andb_false_r).
  assert (F : forall v, N.testbit v 0 = false -> clear1 v = v).
  { intros v H. apply N.bits_inj. intro k. unfold clear1. rewrite N.ldiff_spec. destruct k as [|p]; [now rewrite H|]. replace (N.testbit 1 (N.pos p)) with false by (now destruct p). apply andb_true_r. }
  assert (S0 : forall dim, idSimplex dim = 0%N) by reflexivity.
  intros dim v Hd. unfold buildRefinement. cbn [gt_dim gt_id]. rewrite Nat.eqb_refl. cbn [andb].
  assert (G : In v [idSimplex dim; idCube dim] <-> N.testbit v 0 = false /\ exists c i, Some (build_general dim v c) = Some (BInstance i)).
  { unfold build_general. split.
    - intros [<-|[<-|[]]]; (split; [apply Z|]); exists 0%N; change (clear1 0) with 0%N; unfold idCube; rewrite ?C; rewrite ?S0; cbn [N.eqb].
      + change (clear1 0) with 0%N. rewrite N.eqb_refl. eauto.
      + destruct (N.eqb_spec (clear1 (gt_id (cube dim))) 0); [eauto|]. rewrite N.eqb_refl. eauto.
    - intros (E & c & i & H). rewrite (F v E) in H. destruct (N.eqb_spec v (idSimplex dim)); [now left|]. destruct (N.eqb_spec v (idCube dim)); [right; now left|discriminate]. }
  destruct dim as [|[|[|[|d]]]]; [lia|lia|exact G| |exact G]. clear G. unfold labels, build_three. split.
  - intros [<-|[<-|[<-|[<-|[]]]]]; (split; [reflexivity|]); exists 0%N; cbn; eauto.
  - intros (E & c & i & H). rewrite (F v E) in H. destruct (N.eqb_spec v (idSimplex 3)); [now left|]. destruct (N.eqb_spec v (idCube 3)); [right; now left|].
    destruct (N.eqb_spec v idPrism); [right; right; now left|]. destruct (N.eqb_spec v idPyramid); [right; right; right; now left|discriminate].
Qed.
Print Assumptions C55_labels_meaning.
Theorem C55_dimension_zero : ~ NoDup (labels 0).
Proof. intros H. inversion H as [|x l N _]. apply N. left. reflexivity. Qed.
Print Assumptions C55_dimension_zero.
(** a none type is taken for a simplex instead of being rejected *)
Theorem C55_none_refuted : exists dim t c i, gt_none t = true /\ supported dim t c = false /\ buildRefinement dim t c = Some (BInstance i).
Proof. exists 2, (none 2), (simplex 2), (mkVR 0 0 2). repeat split. Qed.
Print Assumptions C55_none_refuted.

Example C55_example :
  buildRefinement 3 pyramid (simplex 3) = Some (BInstance (mkVR 2 0 3))
  /\ filter (fun im => enabled im 2 0 3) [ISimplex; IHCube; IHCubeTriangulation; IPrismTriangulation; IPyramidTriangulation] = [IPyramidTriangulation]
  /\ buildRefinement 2 (cube 2) (cube 2) = Some (BInstance (mkVR 2 2 2))
  /\ buildRefinement 2 (simplex 2) (cube 2) = Some BNotImplemented
  /\ buildRefinement 4 (GT2 5 4) (simplex 4) = Some BNotImplemented.
Proof. repeat split. Qed.
