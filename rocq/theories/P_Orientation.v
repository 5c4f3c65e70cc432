(** Lemmas for C86: orientation under affine maps and exchanges of corners. *)
From Coq Require Import PeanoNat NArith ZArith Bool List Reals Factorial Lia Lra FunctionalExtensionality.
From Verif Require Import M_RefGeo M_Matrix S_RefGeo S_Matrix P_RSum P_Det P_RefDet P_MxBridge
  M_Refine S_Refine P_Refine1 P_Refine2 P_Refine3 P_Refine4 P_Refine5 P_Refine6 P_Refine9 S_Orientation.
Import ListNotations.
Local Open Scope R_scope.

Lemma orientation_ext : forall dim v w, (forall i, (i <= dim)%nat -> agree dim (v i) (w i)) -> orientation dim v = orientation dim w.
Proof. intros dim v w A. apply detR_ext. intros i j Hi Hj. rewrite (A (S i)), (A 0%nat) by lia. reflexivity. Qed.
Lemma orientation_affine : forall dim G d v, affdet dim G d -> orientation dim (fun i => G (v i)) = orientation dim v * d.
Proof.
  intros dim G d v (c & M & E & D). unfold orientation. rewrite <- D, <- detR_mul. apply detR_ext. intros i j Hi Hj.
  rewrite !E by assumption. replace (c j + rsum dim (fun l => v (S i) l * M l j) - (c j + rsum dim (fun l => v 0%nat l * M l j)))
    with (rsum dim (fun l => v (S i) l * M l j) - rsum dim (fun l => v 0%nat l * M l j)) by ring.
  rewrite <- rsum_minus. apply rsum_ext. intros. ring.
Qed.
Lemma orientation_sc : forall dim, orientation dim sc = 1.
Proof.
  intros dim. destruct (affdet_id dim) as (c & M & E & D). rewrite <- D. unfold orientation. apply detR_ext. intros i j Hi Hj.
  pose proof (E (sc (S i)) j Hj) as A. pose proof (E (sc 0%nat) j Hj) as B. rewrite A, B.
  rewrite (rsum_ext dim (fun l => sc 0 l * M l j) (fun _ => 0)) by (intros; unfold sc; cbn; ring). rewrite rsum_const.
  rewrite (rsum_ext dim (fun l => sc (S i) l * M l j) (fun l => if Nat.eqb l i then M l j else 0)).
  - rewrite rsum_delta by assumption. ring.
  - intros l Hl. unfold sc. cbn [Nat.eqb]. rewrite (Nat.eqb_sym l i). destruct (Nat.eqb i l); ring.
Qed.

(** ** exchanging two corners *)
Definition swap {A} (a b : nat) (v : nat -> A) : nat -> A := fun i => if Nat.eqb i a then v b else if Nat.eqb i b then v a else v i.
Lemma detR_addall : forall n A j (c : nat -> R) m, (j < n)%nat -> (m <= n)%nat ->
  detR n (fun i k => if Nat.ltb i m && negb (Nat.eqb i j) then A i k + c i * A j k else A i k) = detR n A.
Proof.
  intros n A j c m Hj. induction m as [|m IH]; intros Hm; [apply detR_ext; intros; reflexivity|].
  rewrite <- IH by lia. set (B := fun i k => if Nat.ltb i m && negb (Nat.eqb i j) then A i k + c i * A j k else A i k).
  destruct (Nat.eq_dec m j) as [->|N].
  - apply detR_ext. intros i k Hi Hk. unfold B. destruct (Nat.ltb_spec i (S j)), (Nat.ltb_spec i j), (Nat.eqb_spec i j); cbn [andb negb]; try lia; reflexivity.
  - rewrite <- (@detR_add n B m j (c m)) by lia. apply detR_ext. intros i k Hi Hk.
    assert (Bj : B j k = A j k) by (unfold B; rewrite Nat.eqb_refl, andb_false_r; reflexivity). rewrite Bj. unfold B.
    destruct (Nat.eqb_spec i m) as [->|Ni].
    + destruct (Nat.ltb_spec m (S m)), (Nat.ltb_spec m m), (Nat.eqb_spec m j); cbn [andb negb]; try lia; reflexivity.
    + destruct (Nat.ltb_spec i (S m)), (Nat.ltb_spec i m), (Nat.eqb_spec i j); cbn [andb negb]; try lia; reflexivity.
Qed.
Lemma orientation_swap0 : forall dim v b, (b < dim)%nat -> orientation dim (swap 0 (S b) v) = - orientation dim v.
Proof.
  intros dim v b Hb. set (E := fun i j => v (S i) j - v 0%nat j).
  assert (H : orientation dim (swap 0 (S b) v) = detR dim (fun i k => if Nat.eqb i b then (-1) * (fun i k => if Nat.ltb i dim && negb (Nat.eqb i b) then E i k + (-1) * E b k else E i k) i k
      else (fun i k => if Nat.ltb i dim && negb (Nat.eqb i b) then E i k + (-1) * E b k else E i k) i k)).
  { unfold orientation. apply detR_ext. intros i k Hi Hk. unfold swap, E. cbn [Nat.eqb]. destruct (Nat.ltb_spec i dim); [|lia].
    destruct (Nat.eqb_spec i b) as [->|N]; cbn [andb negb]; [ring|]. ring. }
  rewrite H, detR_scale by assumption. rewrite (detR_addall dim E b (fun _ => -1) dim Hb (le_n dim)). unfold orientation, E. ring.
Qed.
Lemma orientation_swap : forall dim v a b, (a <= dim)%nat -> (b <= dim)%nat -> a <> b -> orientation dim (swap a b v) = - orientation dim v.
Proof.
  assert (C : forall A (v : nat -> A) a b, swap a b v = swap b a v).
  { intros A v a b. extensionality i. unfold swap. destruct (Nat.eqb_spec i a), (Nat.eqb_spec i b); congruence. }
  intros dim v a b Ha Hb N. destruct a as [|a]; [destruct b as [|b]; [lia|apply orientation_swap0; lia]|].
  destruct b as [|b]; [rewrite C; apply orientation_swap0; lia|].
  unfold orientation. rewrite <- (@detR_swap dim (fun i j => v (S i) j - v 0%nat j) a b) by lia. apply detR_ext. intros i j Hi Hj. unfold swap. cbn [Nat.eqb].
  destruct (Nat.eqb i a); [reflexivity|]. destruct (Nat.eqb i b); reflexivity.
Qed.
Lemma orientation_reverse : forall dim v, orientation dim (fun i => v (dim - i)%nat) = (-1) ^ ((dim + 1) / 2) * orientation dim v.
Proof.
  intros dim v.
  set (f := fun c => fold_left (fun indices i => let t := indices i in let indices := aset indices i (indices (dim - i)%nat) in aset indices (dim - i) t) (seq 0 c) (fun i => i)).
  assert (D : forall a, (a <= (dim + 1) / 2 -> 2 * a <= dim + 1)%nat).
  { intros a Ha. pose proof (Nat.div_mod (dim + 1) 2 ltac:(lia)). lia. }
  assert (H : forall c, (c <= (dim + 1) / 2)%nat -> orientation dim (fun i => v (f c i)) = (-1) ^ c * orientation dim v).
  { induction c as [|c IH]; intros Hc; [rewrite pow_O, Rmult_1_l; reflexivity|]. pose proof (D _ Hc).
    cbn [pow]. replace (-1 * (-1) ^ c * orientation dim v) with (- ((-1) ^ c * orientation dim v)) by ring. rewrite <- IH by lia.
    rewrite <- (orientation_swap dim (fun i => v (f c i)) c (dim - c)) by lia. apply orientation_ext. intros i Hi j Hj.
    unfold f. rewrite seq_S, fold_left_app. cbn [fold_left Nat.add]. fold (f c). unfold swap.
    destruct (Nat.eqb_spec i c) as [->|N1].
    - rewrite aset_ne by lia. rewrite aset_eq. reflexivity.
    - destruct (Nat.eqb_spec i (dim - c)) as [->|N2]; [rewrite aset_eq; reflexivity|]. rewrite !aset_ne by assumption. reflexivity. }
  rewrite <- H by lia. apply orientation_ext. intros i Hi j Hj. unfold f. rewrite (reverse_spec dim _ ((dim + 1) / 2)) by lia.
  destruct (Nat.ltb_spec i ((dim + 1) / 2)); [reflexivity|]. destruct (Nat.ltb_spec (dim - i) ((dim + 1) / 2)); [reflexivity|]. cbn [orb].
  pose proof (Nat.div_mod (dim + 1) 2 ltac:(lia)). pose proof (Nat.mod_upper_bound (dim + 1) 2 ltac:(lia)). f_equal. f_equal. lia.
Qed.

(** ** the path of corners of a permutation *)
Definition cpos (p : nat -> nat) (i : nat) : nat := match i with O => 0 | S l => p l + 1 end.
Lemma transpositions_S : forall i m, transpositions (S i) m = (transpositions i m + if Nat.eqb ((m / fact i) mod S i) 0 then 0 else 1)%nat.
Proof.
  intros i m. unfold transpositions. rewrite seq_S, filter_app, app_length. cbn [filter Nat.add]. destruct (Nat.eqb ((m / fact i) mod S i) 0); reflexivity.
Qed.
Lemma fact_multiple : forall a b, (a <= b)%nat -> exists c, fact b = (c * fact a)%nat.
Proof.
  intros a b H. induction H as [|b H (c & E)]; [exists 1%nat; lia|]. exists (S b * c)%nat. cbn [fact]. rewrite E. nia.
Qed.
Lemma transpositions_mod : forall i k m, (k <= i)%nat -> transpositions k (m mod fact i) = transpositions k m.
Proof.
  intros i k m. induction k as [|k IH]; intros H; [reflexivity|]. rewrite !transpositions_S, IH by lia. f_equal.
  destruct (fact_multiple (S k) i H) as (c & E). cbn [fact] in E. assert (0 < fact k)%nat by apply fact_pos. assert (0 < fact i)%nat by apply fact_pos.
  assert (X : ((m / fact k) mod S k = (m mod fact i / fact k) mod S k)%nat).
  { pose proof (Nat.div_mod m (fact i) ltac:(lia)) as Dm. set (r := (m mod fact i)%nat) in *. set (z := (m / fact i)%nat) in *.
    assert (Hm : m = (r + (c * z * S k) * fact k)%nat) by (rewrite E in Dm; nia).
    rewrite Hm, Nat.div_add, Nat.mod_add by lia. reflexivity. }
  rewrite X. reflexivity.
Qed.
Lemma cpos_swap : forall f a b i, cpos (swap a b f) i = swap (S a) (S b) (cpos f) i.
Proof. intros f a b [|i]; [reflexivity|]. unfold swap. cbn [cpos Nat.eqb]. destruct (Nat.eqb i a); [reflexivity|]. destruct (Nat.eqb i b); reflexivity. Qed.
Lemma permLoop_sign : forall dim i m f p, (i <= dim)%nat -> (m < fact i)%nat -> permLoop i m (fact i) f = Some p ->
  orientation dim (fun l => sc (cpos p l)) = (-1) ^ transpositions i m * orientation dim (fun l => sc (cpos f l)).
Proof.
  intros dim. induction i as [|i IH]; intros m f p Hi Hm E.
  - cbn [permLoop] in E. injection E as <-. cbn. ring.
  - cbn [permLoop] in E. assert (0 < fact i)%nat as Fp by apply fact_pos.
    assert (B : (fact (S i) / S i)%nat = fact i) by (change (fact (S i)) with (S i * fact i)%nat; rewrite Nat.mul_comm; apply Nat.div_mul; lia).
    rewrite B in E. set (d := (m / fact i)%nat) in *.
    assert (Hd : (d < S i)%nat) by (apply Nat.div_lt_upper_bound; [lia|]; cbn [fact] in Hm; nia).
    destruct (Nat.ltb_spec i d); [lia|].
    apply IH in E; [|lia|apply Nat.mod_upper_bound; lia]. rewrite E. rewrite transpositions_mod by lia. rewrite transpositions_S. fold d. rewrite (Nat.mod_small d) by assumption.
    destruct (Nat.eqb_spec d 0) as [Z|N].
    + rewrite Nat.add_0_r. f_equal. apply orientation_ext. intros l Hl j Hj. f_equal. destruct l as [|l]; [reflexivity|]. cbn [cpos]. f_equal.
      rewrite Z, Nat.sub_0_r. unfold aset. destruct (Nat.eqb_spec l i) as [->|]; reflexivity.
    + rewrite pow_add, pow_1. replace ((-1) ^ transpositions i m * -1 * orientation dim (fun l => sc (cpos f l)))
        with ((-1) ^ transpositions i m * - orientation dim (fun l => sc (cpos f l))) by ring. f_equal.
      rewrite <- (orientation_swap dim (fun l => sc (cpos f l)) (S i) (S (i - d))) by lia. apply orientation_ext. intros l Hl j Hj.
      transitivity (sc (cpos (swap i (i - d) f) l) j).
      * f_equal. destruct l as [|l]; [reflexivity|]. cbn [cpos]. f_equal. unfold swap, aset.
        destruct (Nat.eqb_spec l i), (Nat.eqb_spec l (i - d)); try lia; subst; try reflexivity.
      * rewrite cpos_swap. unfold swap. destruct (Nat.eqb l (S i)); [reflexivity|]. destruct (Nat.eqb l (S (i - d))); reflexivity.
Qed.
Lemma fold_fact : forall n, fold_left (fun base i => (base * i)%nat) (seq 1 n) 1%nat = fact n.
Proof. induction n as [|n IH]; [reflexivity|]. rewrite seq_S, fold_left_app, IH. cbn [fold_left Nat.add fact]. lia. Qed.
Lemma perm_sign : forall dim m p, (m < fact dim)%nat -> getPermutation dim m = Some p ->
  orientation dim (fun l => sc (cpos p l)) = (-1) ^ transpositions dim m.
Proof.
  intros dim m p Hm E. unfold getPermutation in E. rewrite fold_fact in E. rewrite (permLoop_sign dim dim m (fun i => i) p (le_n dim) Hm E).
  rewrite (orientation_ext dim _ sc); [rewrite orientation_sc; ring|]. intros [|i] Hi j Hj; cbn [cpos]; [reflexivity|]. rewrite Nat.add_1_r. reflexivity.
Qed.
Lemma flip_sign : forall dim m v, orientation dim (fun i => v (flip m dim i)) = (if Nat.odd m then (-1) ^ ((dim + 1) / 2) else 1) * orientation dim v.
Proof.
  intros dim m v. unfold flip. assert (E : Nat.eqb (m mod 2) 1 = Nat.odd m).
  { pose proof (Nat.bit0_mod m) as B. rewrite Nat.bit0_odd in B. rewrite <- B. destruct (Nat.odd m); reflexivity. }
  rewrite E. destruct (Nat.odd m); [apply orientation_reverse|]. rewrite Rmult_1_l. reflexivity.
Qed.
(** ** vertexIndices *)
Lemma elem_orientation : forall dim n k G d, (0 < dim)%nat -> (0 < n)%nat -> (k < n ^ dim)%nat -> affdet dim G d ->
  exists vi x, se_vertexIndices dim (elemAt dim n k) = Some vi
  /\ (forall i, (i <= dim)%nat -> (vi i < sx_nVertices dim n)%nat /\ sv_coords dim (svAt dim n (vi i)) = Some (x i))
  /\ orientation dim (fun i => G (x i)) = indexSign dim (se_kuhn (elemAt dim n k)) * (/ INR n) ^ dim * d.
Proof.
  intros dim n k G d Hd Hn Hk HG. destruct (elem_spec dim n k Hd Hn Hk) as (p & q & E & P & Q & qp & pq & D & B & C & _).
  destruct (se_vertexIndices_eq dim (elemAt dim n k) p q E P Q qp pq) as (vi & EV & V). set (o := se_origin (elemAt dim n k)) in *.
  set (ku := se_kuhn (elemAt dim n k)) in *.
  assert (GP : forall i, gridPoint dim n (cornerAt q o i)) by (intros; apply corner_grid; assumption).
  assert (GD : forall i, decr dim (cornerAt q o i)) by (intros; apply (gridPoint_decr dim n), GP).
  exists vi, (fun i => kuhnToReference Rminus dim (fun l => INR (sv_vertex (svAt dim n (vi i)) l) / INR (sv_size (svAt dim n (vi i)))) idp).
  split; [assumption|]. split.
  - intros i Hi. split; [|apply sv_coords_eq; assumption].
    rewrite V by assumption. unfold sx_nVertices. apply index_bound; [assumption|apply GD|]. apply (GP (flip ku dim i)). assumption.
  - rewrite (orientation_affine dim G d _ HG). f_equal. cbn [svAt sv_vertex sv_size].
    rewrite (orientation_ext dim _ (fun i => Gmap dim p o n ((fun l => sc (cpos p l)) (flip ku dim i)))).
    + rewrite (orientation_affine dim _ _ _ (affdet_Gmap dim p o n P)). f_equal.
      rewrite (flip_sign dim ku (fun l => sc (cpos p l))). rewrite (perm_sign dim ku p); [|apply candK_lt|assumption].
      unfold indexSign. rewrite pow_add. destruct (Nat.odd ku); cbn [pow]; ring.
    + intros i Hi j Hj. cbv beta. set (c := flip ku dim i). assert (Hc : (c <= dim)%nat) by (apply flip_le; assumption).
      assert (Hcp : (cpos p c <= dim)%nat) by (destruct c as [|l]; cbn [cpos]; [lia|]; pose proof (proj1 P l ltac:(lia)); lia).
      rewrite (corner_coords dim n p q o (cpos p c) P qp pq Q Hn Hcp j Hj).
      apply (affdet_agree dim (fun x => kuhnToReference Rminus dim x idp) 1 _ _ (affdet_k2r dim idp (isPerm_id dim))); [|assumption].
      intros l Hl. rewrite V by assumption. fold c. pose proof (vseq_of dim _ Hd (GD c) l Hl) as X. rewrite <- X.
      assert (Ec : chainPos q (cpos p c) = c) by (destruct c as [|c']; [reflexivity|]; cbn [cpos]; rewrite Nat.add_1_r; cbn [chainPos]; rewrite qp by lia; lia).
      rewrite Ec. reflexivity.
Qed.

(** ** permutation number 2 exchanges 1 and 2 *)
Lemma permLoop_two : forall i f, (3 <= i)%nat -> exists q, permLoop i 2 (fact i) f = Some q /\ forall j, q j = swap 1 2 f j.
Proof.
  intros i f H. revert f. induction H as [|i H IH]; intros f.
  - cbn [permLoop fact Nat.mul Nat.add]. change (6 / 3)%nat with 2%nat. change (2 / 2)%nat with 1%nat. change (2 mod 2)%nat with 0%nat. cbn [Nat.ltb Nat.leb Nat.sub].
    destruct (permLoop_zero 2 (aset (aset f 2 (f 1%nat)) 1 (f 2%nat))) as (q & E & Q). exists q. split; [exact E|]. intros j. rewrite Q. unfold aset, swap.
    destruct (Nat.eqb j 1); [reflexivity|]. destruct (Nat.eqb j 2); reflexivity.
  - cbn [permLoop]. assert (B : (fact (S i) / S i)%nat = fact i) by (change (fact (S i)) with (S i * fact i)%nat; rewrite Nat.mul_comm; apply Nat.div_mul; lia).
    rewrite B. assert (F : (6 <= fact i)%nat) by (change 6%nat with (fact 3); apply fact_le; assumption).
    rewrite Nat.div_small, Nat.mod_small by lia. cbn [Nat.ltb Nat.leb]. rewrite Nat.sub_0_r.
    destruct (IH (aset (aset f i (f i)) i (f i))) as (q & E & Q). exists q. split; [exact E|]. intros j. rewrite Q. unfold aset, swap.
    assert (X : forall j, (if Nat.eqb j i then f i else if Nat.eqb j i then f i else f j) = f j) by (intros l; destruct (Nat.eqb_spec l i) as [->|]; reflexivity).
    rewrite !X. reflexivity.
Qed.
Lemma kuhn_two : forall dim n, (3 <= dim)%nat -> (2 <= n)%nat -> exists k, (k < n ^ dim)%nat /\ se_kuhn (elemAt dim n k) = 2%nat.
Proof.
  intros dim n Hd Hn. set (v := fun i : nat => if Nat.ltb i 2 then 1%nat else 0%nat).
  assert (F : (2 < fact dim)%nat) by (pose proof (fact_le 3 dim Hd); cbn in *; lia).
  destruct (cand_of dim v 2 ltac:(lia)) as (r & O & K & _); [|assumption|].
  { intros i Hi. unfold v. destruct (Nat.ltb_spec (S i) 2), (Nat.ltb_spec i 2); lia. }
  destruct (permLoop_two dim (fun i => i) Hd) as (p & E & P).
  assert (Ep : permOf dim (candK dim r) = p) by (rewrite K; unfold permOf, getPermutation; rewrite fold_fact, E; reflexivity).
  assert (In : candIn dim r = true).
  { apply (candIn_iff dim r (swap 1 2 (fun i => i))).
    - split; [intros i Hi; unfold swap; destruct (Nat.eqb i 1), (Nat.eqb i 2); lia|]. intros i j Hi Hj. unfold swap.
      destruct (Nat.eqb_spec i 1), (Nat.eqb_spec i 2), (Nat.eqb_spec j 1), (Nat.eqb_spec j 2); lia.
    - intros i Hi. rewrite Ep, P. unfold swap. destruct (Nat.eqb_spec i 1), (Nat.eqb_spec i 2); subst; cbn; try lia; try reflexivity.
      destruct (Nat.eqb_spec i 1), (Nat.eqb_spec i 2); lia.
    - intros i Hi. rewrite Ep, P. unfold swap. destruct (Nat.eqb_spec i 1), (Nat.eqb_spec i 2); subst; cbn; try lia; try reflexivity.
      destruct (Nat.eqb_spec i 1), (Nat.eqb_spec i 2); lia.
    - intros j Hj. rewrite !O by lia. unfold v, swap. destruct (Nat.ltb_spec (S j) 2), (Nat.ltb_spec j 2); try lia.
      + assert (j = 0)%nat by lia. subst j. cbn. lia.
      + destruct (Nat.eqb_spec j 1), (Nat.eqb_spec j 2), (Nat.eqb_spec (S j) 1), (Nat.eqb_spec (S j) 2); try lia.
        * destruct (Nat.ltb_spec 1 (S j)); lia.
        * destruct (Nat.ltb_spec j (S j)); lia. }
  destruct (rs_all dim n r ltac:(lia) ltac:(lia)) as (k & Hk & R); [|assumption|].
  - apply cand_bound; [lia|lia|]. rewrite O by lia. cbn. lia.
  - exists k. split; [assumption|]. cbn [elemAt se_kuhn]. rewrite R. exact K.
Qed.
Lemma indexSign_two : forall dim, (3 <= dim)%nat -> indexSign dim 2 = -1.
Proof.
  intros dim H. unfold indexSign. change (Nat.odd 2) with false. cbv iota. rewrite Nat.add_0_r.
  replace (transpositions dim 2) with 1%nat; [cbn; ring|]. symmetry. induction H as [|dim H IH]; [reflexivity|].
  rewrite transpositions_S, IH. pose proof (fact_le 3 dim H). cbn [fact Nat.mul Nat.add] in *. rewrite Nat.div_small by lia. rewrite Nat.mod_small by lia. reflexivity.
Qed.
Lemma indexSign_plane : forall dim m, (dim <= 2)%nat -> (m < fact dim)%nat -> indexSign dim m = 1.
Proof.
  intros dim m Hd Hm. destruct dim as [|[|[|dim]]]; [| | |lia]; cbn in Hm; (destruct m as [|[|m]]; [| |lia]); try lia; unfold indexSign; cbn; ring.
Qed.
