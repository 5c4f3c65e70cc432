(** The hypercube refinement with unsigned int, and the entity counts with unsigned int. *)
From Coq Require Import PeanoNat NArith ZArith Nnat Bool List Lia Psatz.
From Verif Require Import M_Type M_RefTopo M_RefGeo M_QuadFactory M_Refine S_Refine S_Refine2 P_Refine1 P_Refine8 S_Topo P_RefTopo2 T_RefTopo M_RefineInt.
Import ListNotations.
Local Open Scope N_scope.

Lemma u32_lt : forall n, u32 n < 2 ^ 32. Proof. intros. unfold u32. apply N.mod_lt. discriminate. Qed.
Lemma u32_small : forall n, n < 2 ^ 32 -> u32 n = n. Proof. intros. apply N.mod_small. assumption. Qed.
Lemma u32_mul : forall a b, u32 (u32 a * b) = u32 (a * b). Proof. intros. unfold u32. apply N.mul_mod_idemp_l. discriminate. Qed.
Lemma u32_mul_r : forall a b, u32 (a * u32 b) = u32 (a * b). Proof. intros. unfold u32. apply N.mul_mod_idemp_r. discriminate. Qed.
Lemma u32_add : forall a b, u32 (u32 a + b) = u32 (a + b). Proof. intros. unfold u32. apply N.add_mod_idemp_l. discriminate. Qed.
Lemma u32_add_r : forall a b, u32 (a + u32 b) = u32 (a + b). Proof. intros. unfold u32. apply N.add_mod_idemp_r. discriminate. Qed.
Lemma toUns_toInt : forall n, n < 2 ^ 32 -> toUns (toInt n) = n.
Proof.
  intros n H. unfold toUns, toInt. destruct (N.ltb_spec n (2 ^ 31)) as [L|L].
  - rewrite Z.mod_small; [apply N2Z.id|]. change (2 ^ 32)%Z with (Z.of_N (2 ^ 32)). lia.
  - replace (Z.of_N n - 2 ^ 32)%Z with (Z.of_N n + (-1) * 2 ^ 32)%Z by lia. rewrite Z.mod_add by discriminate.
    rewrite Z.mod_small; [apply N2Z.id|]. change (2 ^ 32)%Z with (Z.of_N (2 ^ 32)). lia.
Qed.
Lemma toInt_small : forall n, n < 2 ^ 31 -> toInt n = Z.of_N n.
Proof. intros n H. unfold toInt. destruct (N.ltb_spec n (2 ^ 31)); [reflexivity|lia]. Qed.
Lemma upower_mod : forall m p, upower m p = u32 (m ^ N.of_nat p).
Proof.
  intros m. induction p as [|p IH]; [reflexivity|]. unfold upower in *. cbn [Nat.iter]. 
  change (Nat.iter (S p) (fun r => u32 (r * m)) 1) with (u32 (Nat.iter p (fun r => u32 (r * m)) 1 * m)).
  rewrite IH, u32_mul. f_equal. rewrite Nat2N.inj_succ, N.pow_succ_r by lia. apply N.mul_comm.
Qed.
Lemma u32_pow : forall a p, u32 (u32 a ^ p) = u32 (a ^ p).
Proof.
  intros a p. induction p as [|p IH] using N.peano_ind; [reflexivity|]. rewrite !N.pow_succ_r by lia.
  rewrite u32_mul, <- u32_mul_r, IH, u32_mul_r. reflexivity.
Qed.
Lemma nVerticesU_mod : forall dim n, hc_nVerticesU dim n = (n + 1) ^ N.of_nat dim mod 2 ^ 32.
Proof. intros. unfold hc_nVerticesU. rewrite upower_mod, u32_pow. reflexivity. Qed.
Lemma nElementsU_mod : forall dim n, hc_nElementsU dim n = n ^ N.of_nat dim mod 2 ^ 32.
Proof. intros. unfold hc_nElementsU. rewrite upower_mod. reflexivity. Qed.

(** the loop from 0 to any end *)
Lemma loopU : forall n e, e < 2 ^ 32 ->
  visits (fun s => Some (ui_increment s)) (fun s => ui_equals s {| ui_index := e; ui_n := n |}) {| ui_index := 0; ui_n := n |} (N.to_nat e)
    (fun k => {| ui_index := N.of_nat k; ui_n := n |}).
Proof.
  intros n e H. split; [reflexivity|]. split.
  - intros k Hk. unfold ui_equals, ui_increment. cbn [ui_index ui_n]. split.
    + destruct (N.eqb_spec (N.of_nat k) e); [lia|reflexivity].
    + do 2 f_equal. rewrite u32_small by lia. lia.
  - unfold ui_equals. cbn [ui_index ui_n]. rewrite N2Nat.id, !N.eqb_refl. reflexivity.
Qed.

(** coordinates *)
Definition toU (s : HIter) : UIter := {| ui_index := N.of_nat (hi_index s); ui_n := N.of_nat (hi_n s) |}.
Lemma foldU : forall w l idx c idx' c', w <> 0%nat -> idx = N.of_nat idx' -> (forall j, c j = N.of_nat (c' j)) ->
  forall j, snd (fold_left (fun '(idx, c) d => (idx / N.of_nat w, aset c d (idx mod N.of_nat w))) l (idx, c)) j
   = N.of_nat (snd (fold_left (fun '(idx, c) d => (Nat.div idx w, aset c d (Nat.modulo idx w))) l (idx', c')) j).
Proof.
  intros w. induction l as [|d l IH]; intros idx c idx' c' W E A j; cbn [fold_left]; [apply A|].
  apply IH; [assumption|subst; symmetry; apply Nat2N.inj_div|].
  intros i. unfold aset. destruct (Nat.eqb i d); [subst; symmetry; apply Nat2N.inj_mod|apply A].
Qed.
Lemma idx2coordU_ok : forall dim idx w, w <> 0%nat -> exists c, idx2coordU dim (N.of_nat idx) (N.of_nat w) = Some c
  /\ forall j, c j = N.of_nat (idx2coord dim idx w j).
Proof.
  intros dim idx w W. unfold idx2coordU. destruct (N.eqb_spec (N.of_nat w) 0); [lia|]. cbn [andb]. eexists. split; [reflexivity|].
  intros j. unfold idx2coord. apply foldU; auto.
Qed.
Lemma multiU : forall i d, idx2multiidxU (N.of_nat i) d = N.of_nat (idx2multiidx i d).
Proof.
  intros i d. rewrite land1. unfold idx2multiidxU. change 1 with (N.ones 1) at 1. rewrite N.land_ones. change (2 ^ 1) with 2.
  rewrite <- N.bit0_mod, N.shiftr_spec' , N.add_0_l.
  rewrite Nat.testbit_odd, N.testbit_odd.
  rewrite N.shiftr_div_pow2, Nat.shiftr_div_pow2.
  replace (2 ^ N.of_nat d) with (N.of_nat (2 ^ d)) by (rewrite Nat2N.inj_pow; reflexivity). rewrite <- Nat2N.inj_div.
  set (x := Nat.div i (2 ^ d)). assert (X : N.odd (N.of_nat x) = Nat.odd x).
  { destruct (Nat.odd x) eqn:O.
    - apply Nat.odd_spec in O. destruct O as [m ->]. apply N.odd_spec. exists (N.of_nat m). lia.
    - rewrite <- Nat.negb_even in O. apply negb_false_iff, Nat.even_spec in O. destruct O as [m ->].
      rewrite <- N.negb_even. apply negb_false_iff, N.even_spec. exists (N.of_nat m). lia. }
  rewrite X. destruct (Nat.odd x); reflexivity.
Qed.
Lemma viU : forall dim s i, hi_n s <> 0%nat ->
  he_vertexIndicesU dim (toU s) (N.of_nat i) = Some (toInt (u32 (N.of_nat (he_vertexIndices dim s i)))).
Proof.
  intros dim s i Hn. unfold he_vertexIndicesU, ui_cellCoord. cbn [ui_index ui_n toU].
  destruct (idx2coordU_ok dim (hi_index s) (hi_n s) Hn) as (c & E & C). rewrite E. cbn [option_map]. f_equal. unfold he_vertexIndices.
  assert (X : forall l vec base vec' base', toUns vec = u32 (N.of_nat vec') -> vec = toInt (toUns vec) -> toUns base = u32 (N.of_nat base') ->
    fst (fold_left (fun '(vec, base) d => (toInt (u32 (toUns vec + u32 (u32 (idx2multiidxU (N.of_nat i) d + c d) * toUns base))),
            toInt (u32 (toUns base * u32 (N.of_nat (hi_n s) + 1))))) l (vec, base))
    = toInt (u32 (N.of_nat (fst (fold_left (fun '(vec, base) d => ((vec + (idx2multiidx i d + hi_cellCoord dim s d) * base)%nat, (base * (hi_n s + 1))%nat)) l (vec', base')))))).
  { induction l as [|d l IH]; intros vec base vec' base' V1 V2 B; cbn [fold_left].
    - cbn [fst]. rewrite V2 at 1. rewrite V1. reflexivity.
    - apply IH.
      + rewrite toUns_toInt by apply u32_lt. rewrite V1, B, u32_add, u32_mul_r, u32_mul, u32_add_r, multiU, C.
        unfold hi_cellCoord. rewrite !Nat2N.inj_add, Nat2N.inj_mul, Nat2N.inj_add. reflexivity.
      + rewrite toUns_toInt by apply u32_lt. reflexivity.
      + rewrite toUns_toInt by apply u32_lt. rewrite B, u32_mul, u32_mul_r. rewrite Nat2N.inj_mul, Nat2N.inj_add. reflexivity. }
  apply X; reflexivity.
Qed.

(** ** number of subentities *)
Lemma sizeU_mod : forall dim id codim, sizeU id dim codim = u32 (N.of_nat (size id dim codim)).
Proof.
  induction dim as [|dim IH]; intros id codim; [destruct codim; reflexivity|]. destruct codim as [|codim]; [reflexivity|].
  cbn [sizeU size]. rewrite !IH. destruct (isPrism id (S dim) 0); destruct (Nat.ltb (S codim) (S dim)).
  - rewrite u32_add_r, u32_add, <- u32_add_r, u32_mul_r, u32_add_r. f_equal. lia.
  - rewrite u32_add_r, <- u32_add_r, u32_mul_r, u32_add_r. f_equal. lia.
  - rewrite u32_add_r, u32_add. f_equal. lia.
  - rewrite u32_add. f_equal. lia.
Qed.
Fixpoint wnext (p : N) (l : list N) : list N := match l with [] => [2 * p] | x :: l => x + 2 * p :: wnext x l end.
Fixpoint wrow (d : nat) : list N := match d with O => [1] | S d => wnext 0 (wrow d) end.
Lemma wnext_nth : forall l p c, nth (S c) (wnext p l) 0 = nth (S c) l 0 + 2 * nth c l 0.
Proof.
  induction l as [|x l IH]; intros p c; [destruct c; reflexivity|]. cbn [wnext nth]. destruct c as [|c].
  - destruct l; [reflexivity|]. reflexivity.
  - rewrite IH. reflexivity.
Qed.
Lemma wrow_0 : forall d, nth 0 (wrow d) 0 = 1.
Proof. induction d as [|d IH]; [reflexivity|]. cbn [wrow]. destruct (wrow d) as [|x l]; cbn in *; [discriminate|]. lia. Qed.
Lemma wrow_S : forall d c, nth (S c) (wrow (S d)) 0 = nth (S c) (wrow d) 0 + 2 * nth c (wrow d) 0.
Proof. intros. cbn [wrow]. apply wnext_nth. Qed.
Lemma wrow_binom : forall d c, nth c (wrow d) 0 = N.of_nat (binomial d c * 2 ^ c).
Proof.
  induction d as [|d IH]; intros [|c].
  - reflexivity.
  - cbn. destruct c; reflexivity.
  - rewrite wrow_0, binomial_0. reflexivity.
  - rewrite wrow_S, !IH, binomial_S, Nat.pow_succ_r'. lia.
Qed.
Lemma wrow_diag : forall d, nth d (wrow d) 0 = 2 ^ N.of_nat d.
Proof. intros. rewrite wrow_binom, binomial_n, Nat.mul_1_l, Nat2N.inj_pow. reflexivity. Qed.
Lemma size_wrow : forall dim id codim, (codim <= dim)%nat -> N.of_nat (size id dim codim) <= nth codim (wrow dim) 0.
Proof.
  induction dim as [|dim IH]; intros id codim H.
  - replace codim with 0%nat by lia. cbn. lia.
  - destruct codim as [|codim]; [rewrite wrow_0; cbn; lia|]. rewrite wrow_S. cbn [size].
    pose proof (IH (baseTopologyId id (S dim) 1) codim ltac:(lia)) as A.
    destruct (Nat.ltb_spec (S codim) (S dim)) as [L|L].
    + pose proof (IH (baseTopologyId id (S dim) 1) (S codim) ltac:(lia)) as B. destruct (isPrism id (S dim) 0); lia.
    + destruct (isPrism id (S dim) 0); [lia|]. replace codim with dim in * by lia. rewrite wrow_diag in *.
      assert (1 <= 2 ^ N.of_nat dim) by (pose proof (N.pow_nonzero 2 (N.of_nat dim) ltac:(lia)); lia). lia.
Qed.
Lemma wrow_21 : forall dim codim, (dim <= 21)%nat -> nth codim (wrow dim) 0 < 2 ^ 31.
Proof.
  intros dim codim H.
  assert (X : forallb (fun d => forallb (fun x => x <? 2 ^ 31) (wrow d)) (seq 0 22) = true) by (vm_compute; reflexivity).
  rewrite forallb_forall in X. specialize (X dim ltac:(apply in_seq; lia)). rewrite forallb_forall in X.
  destruct (nth_in_or_default codim (wrow dim) 0) as [I|E].
  - apply N.ltb_lt. apply X. exact I.
  - rewrite E. reflexivity.
Qed.
