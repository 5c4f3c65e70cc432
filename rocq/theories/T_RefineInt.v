(** C69: the refinements and the entity counts with 32-bit integers. *)
From Coq Require Import PeanoNat NArith ZArith Nnat Bool List Factorial Arith Lia.
From Verif Require Import M_Type M_RefTopo M_RefGeo M_QuadFactory M_Refine S_Refine S_Refine2 P_Refine1 P_Refine2 P_Refine3 P_Refine6 P_Refine7 P_Refine8 P_Refine9 S_Topo P_RefTopo2 T_RefTopo T_Refine
  M_RefineInt P_RefineInt1 P_RefineInt2.
Import ListNotations.

(** the loops with int *)
Definition simplexVerticesI (dim n N : nat) (st : nat -> SVert) : Prop := exists b e,
  sv_makeI n false = Some b /\ sv_makeI n true = Some e /\ visits (sv_incrementI dim) (fun s => sv_equals dim s e) b N st.
Definition simplexElementsI (power : nat -> nat -> option nat) (fuel dim n N : nat) (st : nat -> SElem) : Prop := exists b e,
  se_makeI power dim n false = Some b /\ se_makeI power dim n true = Some e
  /\ visits (fun s => ret (se_incrementI fuel dim s)) (fun s => se_equals s e) b N st.
Definition triangVerticesI (dim : nat) (t : Triang) (n N : nat) (st : nat -> TVert) : Prop := exists b e,
  tv_makeI t n false = Some b /\ tv_makeI t n true = Some e /\ visits (tv_incrementI dim) (fun s => tv_equals dim s e) b N st.
Definition triangElementsI (power : nat -> nat -> option nat) (fuel dim : nat) (t : Triang) (n N : nat) (st : nat -> TElem) : Prop := exists b e,
  te_makeI power dim t n false = Some b /\ te_makeI power dim t n true = Some e
  /\ visits (fun s => ret (te_incrementI power fuel dim s)) (fun s => te_equals s e) b N st.
Definition cubeLoopU (e b : UIter) (N : nat) (st : nat -> UIter) : Prop :=
  visits (fun s => Some (ui_increment s)) (fun s => ui_equals s e) b N st.

Lemma visits_transport {S} : forall (step step' : S -> option S) atEnd b N st,
  visits step atEnd b N st -> (forall k, k < N -> step' (st k) = Some (st (k + 1))) -> visits step' atEnd b N st.
Proof. intros step step' atEnd b N st (A & B & C) H. split; [assumption|]. split; [|assumption]. intros k Hk. split; [apply B|apply H]; assumption. Qed.

Lemma shape_count_gen : forall dim t id, CoarseShape dim t id -> 0 < tr_count t <= fact dim.
Proof. intros dim t id H. destruct H as [d H| |]; cbn; try lia. pose proof (fact_pos d). lia. Qed.

(** getPermutation: the base n! is an int *)
Theorem C69_permutations : forall n m,
  (n <= 12 -> getPermutationI n m = getPermutation n m) /\ (12 < n -> getPermutationI n m = None).
Proof.
  intros n m. rewrite getPermutationI_ck. split; intros H.
  - rewrite ck_ok by (apply fact_fits; assumption). reflexivity.
  - rewrite ck_none; [reflexivity|]. rewrite fact_fits. lia.
Qed.
Print Assumptions C69_permutations.

(** *** the simplex: everything is as in C48-C51 if (n+1)...(n+dim) is an int *)
Section Simplex.
Variables (bin pow : nat -> nat -> option nat).
Hypothesis Hbin : binOk bin.
Hypothesis Hpow : powOk pow.
Variables (dim n : nat).
Hypothesis Hd : 0 < dim.
Hypothesis Hf : (Z.of_nat (fact dim * sx_nVertices dim n) <= INT_MAX)%Z.
Theorem C69_counts : sx_nVerticesI bin dim n = Some (sx_nVertices dim n)
  /\ (0 < n -> sx_nElementsI pow dim n = Some (sx_nElements dim n)).
Proof. split; [apply nVerticesI_ok; assumption|]. intros. apply nElementsI_ok; assumption. Qed.
Theorem C69_vertices : forall st, simplexVertices dim n st ->
  simplexVerticesI dim n (sx_nVertices dim n) st
  /\ forall k, k < sx_nVertices dim n -> sv_indexI bin dim (st k) = Some (sv_index dim (st k)).
Proof.
  intros st V. assert (E : forall k, k <= sx_nVertices dim n -> st k = svAt dim n k)
    by (intros k Hk; apply (visits_unique _ _ _ _ _ _ V (svertices dim n Hd)); assumption).
  split.
  - exists (sv_make n false), (sv_make n true). rewrite !(sv_makeI_ok dim n Hd Hf). split; [reflexivity|]. split; [reflexivity|].
    apply (visits_transport _ _ _ _ _ _ V). intros k Hk. rewrite !E, Nat.add_1_r by lia. apply svI_step; assumption.
  - intros k Hk. rewrite E by lia. rewrite (svI_index bin Hbin dim n Hd Hf) by assumption. f_equal. symmetry. apply vseq_index. assumption.
Qed.
Theorem C69_elements : forall fuel st, 0 < n -> fact dim <= fuel -> simplexElements fuel dim n st ->
  simplexElementsI pow fuel dim n (sx_nElements dim n) st
  /\ forall k, k < sx_nElements dim n -> se_vertexIndicesI bin dim (st k) = se_vertexIndices dim (st k).
Proof.
  intros fuel st Hn F V. assert (E : forall k, k <= n ^ dim -> st k = elemAt dim n k)
    by (intros k Hk; apply (visits_unique _ _ _ _ _ _ V (selements fuel dim n Hd Hn F)); assumption).
  unfold sx_nElements in *. split.
  - exists (se_make dim n false), (se_make dim n true). rewrite !(se_makeI_ok pow Hpow dim n Hd Hf) by assumption. split; [reflexivity|]. split; [reflexivity|].
    apply (visits_transport _ _ _ _ _ _ V). intros k Hk. unfold sx_nElements in Hk. rewrite !E, Nat.add_1_r by lia.
    rewrite seI_step by assumption. reflexivity.
  - intros k Hk. rewrite E by lia. apply viI_ok; assumption.
Qed.

(** *** the triangulations *)
Variables (t : Triang) (id : N).
Hypothesis Sh : CoarseShape dim t id.
Hypothesis Hn : 0 < n.
Hypothesis He : (Z.of_nat (tr_nElements dim t n) <= INT_MAX)%Z.
Lemma shape_count : 0 < tr_count t <= fact dim.
Proof. exact (shape_count_gen dim t id Sh). Qed.
Lemma shape_fits : (Z.of_nat (tr_nVertices dim t n) <= INT_MAX)%Z.
Proof. apply (fits_le _ (fact dim * sx_nVertices dim n)); [|assumption]. unfold tr_nVertices. pose proof shape_count. nia. Qed.
Theorem C69_triang_counts : tr_nVerticesI bin dim t n = Some (tr_nVertices dim t n) /\ tr_nElementsI pow dim t n = Some (tr_nElements dim t n).
Proof.
  pose proof shape_count as [C _]. pose proof shape_fits as Hv. split; [apply trnV_ok; assumption|apply trnE_ok; assumption].
Qed.
Theorem C69_triang_vertices : forall st, triangVertices dim t n st ->
  triangVerticesI dim t n (tr_nVertices dim t n) st
  /\ forall k, k < tr_nVertices dim t n -> tv_indexI bin dim (st k) = Some (tv_index dim (st k)).
Proof.
  intros st V. pose proof shape_count as [C _]. pose proof shape_fits as Hv.
  assert (E : forall k, k <= tr_nVertices dim t n -> st k = tvAt dim n k)
    by (intros k Hk; apply (visits_unique _ _ _ _ _ _ V (tvertices dim t n Hd Hn)); assumption).
  split.
  - exists (tv_make t n false), (tv_make t n true). rewrite !(tv_makeI_ok dim n Hd Hf t Hn C Hv). split; [reflexivity|]. split; [reflexivity|].
    apply (visits_transport _ _ _ _ _ _ V). intros k Hk. rewrite !E, Nat.add_1_r by lia. apply (tvI_step dim n Hd Hf t); assumption.
  - intros k Hk. rewrite E by lia. rewrite (tvI_index bin Hbin dim n Hd Hf t Hn C Hv) by assumption. rewrite tvAt_index by assumption. reflexivity.
Qed.
Theorem C69_triang_elements : forall fuel st, fact dim <= fuel -> triangElements fuel dim t n st ->
  triangElementsI pow fuel dim t n (tr_nElements dim t n) st
  /\ forall k, k < tr_nElements dim t n ->
     te_indexI pow dim (st k) = Some (te_index dim (st k))
     /\ exists vi viI, te_vertexIndices dim (st k) = Some vi /\ te_vertexIndicesI bin dim (st k) = Some viI
        /\ forall i, i <= dim -> viI i = Some (vi i).
Proof.
  intros fuel st F V. pose proof shape_count as [C _]. pose proof shape_fits as Hv.
  assert (E : forall k, k <= tr_nElements dim t n -> st k = teAt dim n k)
    by (intros k Hk; apply (visits_unique _ _ _ _ _ _ V (telements fuel dim t n Hd Hn F)); assumption).
  split.
  - exists (te_make dim t n false), (te_make dim t n true). rewrite !(te_makeI_ok pow Hpow dim n Hd Hf t Hn C Hv). split; [reflexivity|]. split; [reflexivity|].
    apply (visits_transport _ _ _ _ _ _ V). intros k Hk. rewrite !E, Nat.add_1_r by lia.
    rewrite (teI_step pow Hpow dim n Hd Hf t) by assumption. reflexivity.
  - intros k Hk. rewrite E by lia. split.
    + rewrite (teI_index pow Hpow dim n Hd Hf t) by assumption. rewrite teAt_index by assumption. reflexivity.
    + apply (teI_vi bin Hbin dim n Hd Hf t); assumption.
Qed.
End Simplex.
Print Assumptions C69_counts.
Print Assumptions C69_vertices.
Print Assumptions C69_elements.
Print Assumptions C69_triang_counts.
Print Assumptions C69_triang_vertices.
Print Assumptions C69_triang_elements.

(** the functions of dune-common that we know satisfy the two assumptions *)
Theorem C69_math : binOk binomialI /\ powOk powerI.
Proof. split; [apply binomialI_ok|apply powerI_ok]. Qed.
Print Assumptions C69_math.

(** it is not enough that the number of vertices is an int *)
Theorem C69_counts_refuted : exists dim n, 0 < dim /\ 0 < n /\ (Z.of_nat (sx_nVertices dim n) <= INT_MAX)%Z
  /\ sx_nVerticesI binomialI dim n = None.
Proof.
  exists 3, 1289. assert (P : Z.of_nat (prodl (fun i => i + 1) (seq 1289 3) 1) = 2151683880%Z).
  { cbn [seq prodl fold_left]. rewrite !Nat2Z.inj_mul. vm_compute. reflexivity. }
  split; [lia|]. split; [lia|].
  assert (B : prodl (fun i => i + 1) (seq 1289 3) 1 = 6 * binom 1292 3).
  { change 1289 with (1292 - 3). change 6 with (fact 3). apply fall_binom. lia. }
  split.
  - unfold sx_nVertices. change (3 + 1289) with 1292. rewrite B in P. unfold INT_MAX. lia.
  - unfold sx_nVerticesI. rewrite ck_ok by (unfold INT_MAX; lia). cbn [obind]. change (3 + 1289) with 1292.
    unfold binomialI. change (1292 <? 3) with false. cbv iota. rewrite ck_ok by (unfold INT_MAX; lia). cbn [obind].
    change (1292 <? 2 * 3) with false. cbv iota zeta. change (1292 - 3) with 1289.
    rewrite (foldO_prod (fun i => i + 1)); [|intros; lia|apply fits_one]. rewrite ck_none; [reflexivity|]. rewrite P. unfold INT_MAX. lia.
Qed.
Print Assumptions C69_counts_refuted.

(** *** the cube: unsigned arithmetic wraps around *)
Local Open Scope N_scope.
Theorem C69_cube_rounds : forall dim n, n < 2 ^ 32 ->
  cubeLoopU (hu_vEnd dim n) (hu_vBegin n) (N.to_nat ((n + 1) ^ N.of_nat dim mod 2 ^ 32)) (fun k => {| ui_index := N.of_nat k; ui_n := n |})
  /\ cubeLoopU (hu_eEnd dim n) (hu_eBegin n) (N.to_nat (n ^ N.of_nat dim mod 2 ^ 32)) (fun k => {| ui_index := N.of_nat k; ui_n := n |}).
Proof.
  intros dim n H. unfold cubeLoopU, hu_vEnd, hu_eEnd. rewrite nVerticesU_mod, nElementsU_mod.
  split; apply loopU; apply N.mod_lt; discriminate.
Qed.
Print Assumptions C69_cube_rounds.
Theorem C69_cube : forall dim n, (0 < n)%nat -> (N.of_nat n + 1) ^ N.of_nat dim < 2 ^ 32 ->
  hc_nVerticesU dim (N.of_nat n) = N.of_nat (hc_nVertices dim n) /\ hc_nElementsU dim (N.of_nat n) = N.of_nat (hc_nElements dim n)
  /\ (forall vs, cubeVertices dim n vs ->
        cubeLoopU (hu_vEnd dim (N.of_nat n)) (hu_vBegin (N.of_nat n)) (hc_nVertices dim n) (fun k => {| ui_index := N.of_nat k; ui_n := N.of_nat n |})
        /\ forall k, (k < hc_nVertices dim n)%nat -> exists c, ui_vertexCoord dim {| ui_index := N.of_nat k; ui_n := N.of_nat n |} = Some c
             /\ forall d, c d = N.of_nat (hi_vertexCoord dim (vs k) d))
  /\ (forall es, cubeElements dim n es ->
        cubeLoopU (hu_eEnd dim (N.of_nat n)) (hu_eBegin (N.of_nat n)) (hc_nElements dim n) (fun k => {| ui_index := N.of_nat k; ui_n := N.of_nat n |})
        /\ forall k, (k < hc_nElements dim n)%nat -> 
             (exists c, ui_cellCoord dim {| ui_index := N.of_nat k; ui_n := N.of_nat n |} = Some c
               /\ forall d, c d = N.of_nat (hi_cellCoord dim (es k) d))
             /\ forall i, (i < 2 ^ dim)%nat -> exists v, he_vertexIndices dim (es k) i = v /\ (v < hc_nVertices dim n)%nat
                 /\ he_vertexIndicesU dim {| ui_index := N.of_nat k; ui_n := N.of_nat n |} (N.of_nat i)
                    = Some (ui_indexI {| ui_index := N.of_nat v; ui_n := N.of_nat n |})).
Proof.
  intros dim n Hn H.
  assert (EV : N.of_nat (hc_nVertices dim n) = (N.of_nat n + 1) ^ N.of_nat dim) by (unfold hc_nVertices; rewrite Nat2N.inj_pow, Nat2N.inj_add; reflexivity).
  assert (EE : N.of_nat (hc_nElements dim n) = N.of_nat n ^ N.of_nat dim) by (unfold hc_nElements; rewrite Nat2N.inj_pow; reflexivity).
  assert (LE : N.of_nat n ^ N.of_nat dim <= (N.of_nat n + 1) ^ N.of_nat dim) by (apply N.pow_le_mono_l; lia).
  assert (NV : hc_nVerticesU dim (N.of_nat n) = N.of_nat (hc_nVertices dim n)) by (rewrite nVerticesU_mod, EV; apply N.mod_small; assumption).
  assert (NE : hc_nElementsU dim (N.of_nat n) = N.of_nat (hc_nElements dim n)) by (rewrite nElementsU_mod, EE; apply N.mod_small; lia).
  split; [assumption|]. split; [assumption|]. split.
  - intros vs V. split.
    + rewrite <- (Nat2N.id (hc_nVertices dim n)), <- NV. apply loopU. rewrite NV, EV. assumption.
    + intros k Hk. rewrite (hst n _ vs V k) by lia. unfold ui_vertexCoord, hi_vertexCoord. cbn [ui_index ui_n hAt hi_index hi_n].
      rewrite (Nat2N.inj_add n 1) || idtac. destruct dim as [|dim'].
      * eexists. split; [unfold idx2coordU; rewrite andb_false_r; reflexivity|]. reflexivity.
      * assert (n1 : N.of_nat n + 1 < 2 ^ 32).
        { apply N.le_lt_trans with ((N.of_nat n + 1) ^ N.of_nat (S dim')); [|assumption]. rewrite <- (N.pow_1_r (N.of_nat n + 1)) at 1. apply N.pow_le_mono_r; lia. }
        rewrite u32_small by assumption. replace (N.of_nat n + 1) with (N.of_nat (n + 1)) by lia. apply idx2coordU_ok. lia.
  - intros es V. split.
    + rewrite <- (Nat2N.id (hc_nElements dim n)), <- NE. apply loopU. rewrite NE, EE. lia.
    + intros k Hk. rewrite (hst n _ es V k) by lia. split.
      * unfold ui_cellCoord, hi_cellCoord. cbn [ui_index ui_n hAt hi_index hi_n]. apply idx2coordU_ok. lia.
      * intros i Hi. exists (he_vertexIndices dim (hAt n k) i). split; [reflexivity|].
        assert (B : (he_vertexIndices dim (hAt n k) i < hc_nVertices dim n)%nat).
        { rewrite he_vertexIndices_eq. unfold hc_nVertices. apply dsum_bound. intros d Hd. unfold hi_cellCoord. cbn [hi_index hi_n hAt].
          pose proof (idx2coord_bound dim k n d ltac:(lia) Hd). destruct (Nat.testbit i d); lia. }
        split; [assumption|]. change {| ui_index := N.of_nat k; ui_n := N.of_nat n |} with (toU (hAt n k)). rewrite viU by (cbn; lia).
        rewrite u32_small by lia. reflexivity.
Qed.
Print Assumptions C69_cube.
(** below 2^31 vertices index() and vertexIndices() are the numbers themselves *)
Theorem C69_cube_index : forall k n, k < 2 ^ 31 -> ui_indexI {| ui_index := k; ui_n := n |} = Z.of_N k.
Proof. intros k n H. apply toInt_small. exact H. Qed.
Print Assumptions C69_cube_index.
(** 65535 intervals of the square: no vertex is visited although there is an element *)
Theorem C69_cube_refuted : exists dim n, 0 < n /\ n < 2 ^ 32 /\ hc_nVerticesU dim n = 0 /\ hc_nElementsU dim n <> 0
  /\ ui_equals (hu_vBegin n) (hu_vEnd dim n) = true /\ ui_equals (hu_eBegin n) (hu_eEnd dim n) = false.
Proof. exists 2%nat, 65535. repeat split; try reflexivity; discriminate. Qed.
Print Assumptions C69_cube_refuted.

(** *** number of subentities: right up to dimension 21, for every topology *)
Theorem C69_size_mod : forall id dim codim, sizeU id dim codim = N.of_nat (size id dim codim) mod 2 ^ 32.
Proof. intros. apply sizeU_mod. Qed.
Theorem C69_size : forall id dim codim, (codim <= dim <= 21)%nat ->
  sizeU id dim codim = N.of_nat (size id dim codim) /\ toInt (sizeU id dim codim) = Z.of_nat (size id dim codim).
Proof.
  intros id dim codim H. pose proof (size_wrow dim id codim ltac:(lia)). pose proof (wrow_21 dim codim ltac:(lia)).
  assert (E : sizeU id dim codim = N.of_nat (size id dim codim)).
  { rewrite sizeU_mod. apply u32_small. apply N.lt_trans with (2 ^ 31); [lia|reflexivity]. }
  split; [exact E|]. rewrite E, toInt_small by lia. lia.
Qed.
Theorem C69_size_refuted : exists dim codim, dim = 22%nat /\ (codim <= dim)%nat /\ sizeU (2 ^ N.of_nat dim - 1) dim codim <> N.of_nat (size (2 ^ N.of_nat dim - 1) dim codim).
Proof.
  exists 22%nat, 14%nat. split; [reflexivity|]. split; [lia|]. rewrite sizeU_mod, C10_cube_size by lia. rewrite <- wrow_binom. vm_compute. discriminate.
Qed.
Print Assumptions C69_size_mod.
Print Assumptions C69_size.
Print Assumptions C69_size_refuted.

(** *** refinementLevels *)
Theorem C69_levels : forall l,
  ((0 <= l <= 30)%Z -> refinementLevelsI l = Some (2 ^ l)%Z)
  /\ (l = 31%Z -> refinementLevelsI l = Some (- 2 ^ 31)%Z)
  /\ ((l < 0 \/ 31 < l)%Z -> refinementLevelsI l = None).
Proof.
  intros l. split; [|split].
  - intros H. unfold refinementLevelsI. rewrite (proj2 (Z.leb_le 0 l)), (proj2 (Z.leb_le l 31)) by lia. cbn [andb]. f_equal.
    rewrite N.shiftl_1_l.
    assert (P : 2 ^ Z.to_N l < 2 ^ 31) by (apply N.pow_lt_mono_r; lia).
    rewrite u32_small by (apply N.lt_trans with (2 ^ 31); [assumption|reflexivity]). rewrite toInt_small by assumption.
    rewrite N2Z.inj_pow, Z2N.id by lia. reflexivity.
  - intros ->. reflexivity.
  - intros H. unfold refinementLevelsI. destruct (Z.leb_spec 0 l), (Z.leb_spec l 31); try reflexivity; lia.
Qed.
Print Assumptions C69_levels.

Example C69_example : sx_nVerticesI binomialI 3 4 = Some 35%nat /\ tr_nElementsI powerI 3 tr_prism 4 = Some 192%nat
  /\ option_map (fun v => map v [0; 1; 2; 3]%nat)
       (obind (Nat.iter 9 (fun s => obind s (fun s => ret (se_incrementI 6 3 s))) (se_makeI powerI 3 3 false)) (se_vertexIndicesI binomialI 3))
     = option_map (fun v => map v [0; 1; 2; 3]%nat) (se_vertexIndices 3 (elemAt 3 3 9))
  /\ map (fun i => he_vertexIndicesU 2 {| ui_index := 5; ui_n := 3 |} i) [0; 1; 2; 3] = [Some 6; Some 7; Some 10; Some 11]%Z
  /\ hc_nVerticesU 2 65536 = 131073 /\ sizeU 7 3 2 = 12 /\ refinementLevelsI 5 = Some 32%Z.
Proof. vm_compute. repeat split. Qed.
