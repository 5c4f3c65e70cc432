(** Refined elements of two simplices that share at most three corners. *)
From Coq Require Import PeanoNat NArith ZArith Bool List Permutation Reals Factorial Lia Lra FunctionalExtensionality Classical.
From Verif Require Import M_Type M_RefTopo M_RefGeo M_Matrix S_Topo S_RefGeo S_Matrix P_RSum P_RefGeo2 P_Det P_RefDet P_MxBridge
  M_MultiLinear M_Refine S_Refine S_Conform P_Refine1 P_Refine2 P_Refine3 P_Refine4 P_Refine5 P_Refine6 P_Refine7 P_Conform.
Import ListNotations.
Local Open Scope R_scope.

(** ** sums over a support *)
Lemma rsum_lsum : forall N L (f : nat -> R), NoDup L -> (forall l, In l L -> (l < N)%nat) -> (forall l, (l < N)%nat -> ~ In l L -> f l = 0) ->
  rsum N f = lsum f L.
Proof.
  intros N L f D B Z. rewrite (rsum_ext N f (fun m => lsum (fun l => if Nat.eqb m l then f m else 0) L)).
  - rewrite <- lsum_rsum_swap. apply lsum_ext. intros l I. apply rsum_delta. apply B. assumption.
  - intros m Hm. destruct (in_dec Nat.eq_dec m L) as [I|I].
    + clear B Z. induction L as [|a L IH]; [destruct I|]. inversion D as [|? ? D1 D2]. subst. rewrite lsum_cons. destruct (Nat.eqb_spec m a) as [->|N0].
      * rewrite lsum_0; [ring|]. intros l Il. destruct (Nat.eqb_spec a l); [subst; contradiction|reflexivity].
      * destruct I as [->|I]; [congruence|]. rewrite <- IH by assumption. ring.
    + rewrite Z by assumption. symmetry. apply lsum_0. intros l Il. destruct (Nat.eqb m l); reflexivity.
Qed.
Lemma lsum_diff : forall a (f g : nat -> R) L, a * (lsum f L - lsum g L) = lsum (fun l => a * (f l - g l)) L.
Proof. intros a f g. induction L as [|l L IH]; [cbn; ring|]. rewrite !lsum_cons, <- IH. ring. Qed.
(** values g moved to the positions s *)
Definition move (s : nat -> nat) (L : list nat) (g : nat -> R) (m : nat) : R := lsum (fun l => if Nat.eqb m (s l) then g l else 0) L.
Lemma move_sum : forall s L g N (h : nat -> R), (forall l, In l L -> (s l < N)%nat) -> rsum N (fun m => move s L g m * h m) = lsum (fun l => g l * h (s l)) L.
Proof.
  intros s L g N h B. unfold move.
  rewrite (rsum_ext N _ (fun m => lsum (fun l => if Nat.eqb m (s l) then g l * h m else 0) L)).
  - rewrite <- lsum_rsum_swap. apply lsum_ext. intros l I. apply (rsum_delta N (s l) (fun m => g l * h m)). apply B. assumption.
  - intros m Hm. rewrite Rmult_comm, <- lsum_scal. apply lsum_ext. intros l I. destruct (Nat.eqb m (s l)); ring.
Qed.
Lemma move_prefix : forall s L g i, rsum i (move s L g) = lsum (fun l => if (s l <? i)%nat then g l else 0) L.
Proof.
  intros s L g i. unfold move. rewrite <- lsum_rsum_swap. apply lsum_ext. intros l I. destruct (Nat.ltb_spec (s l) i).
  - apply (rsum_delta i (s l) (fun _ => g l)). assumption.
  - apply rsum_0. intros k Hk. destruct (Nat.eqb_spec k (s l)); [lia|reflexivity].
Qed.
(** three numbers with sum 0 and absolute values below 1 *)
Lemma three_ranges : forall s L (E : nat -> R), (length L <= 3)%nat -> (forall l, In l L -> -1 < E l < 1) -> lsum E L = 0 ->
  forall i j, rsum i (move s L E) - rsum j (move s L E) < 1.
Proof.
  intros s L E H B Z i j. rewrite !move_prefix.
  destruct L as [|a [|b [|c [|d L]]]]; cbn [length] in H; try lia; unfold lsum in *; cbn [fold_right] in *.
  - lra.
  - pose proof (B a (or_introl eq_refl)).
    destruct (Nat.ltb_spec (s a) i), (Nat.ltb_spec (s a) j); try lra.
  - pose proof (B a (or_introl eq_refl)). pose proof (B b (or_intror (or_introl eq_refl))).
    destruct (Nat.ltb_spec (s a) i), (Nat.ltb_spec (s a) j), (Nat.ltb_spec (s b) i), (Nat.ltb_spec (s b) j); try lra; exfalso; lia.
  - pose proof (B a (or_introl eq_refl)). pose proof (B b (or_intror (or_introl eq_refl))). pose proof (B c (or_intror (or_intror (or_introl eq_refl)))).
    destruct (Nat.ltb_spec (s a) i), (Nat.ltb_spec (s a) j), (Nat.ltb_spec (s b) i), (Nat.ltb_spec (s b) j), (Nat.ltb_spec (s c) i), (Nat.ltb_spec (s c) j);
      try lra; exfalso; lia.
Qed.
(** ** moving a grid point near x to the other simplex *)
Lemma small_int : forall a : Z, -1 < IZR a < 1 -> a = 0%Z.
Proof. intros a [A B]. change (-1) with (IZR (-1)) in A. change 1 with (IZR 1) in B. apply lt_IZR in A. apply lt_IZR in B. lia. Qed.
Lemma bnear_single : forall dim n c x l, bnear dim n c x -> (l <= dim)%nat -> -1 < bdiff dim n c x l < 1.
Proof.
  intros dim n c x l B H. pose proof (B (S l) l ltac:(lia) ltac:(lia)). pose proof (B l (S l) ltac:(lia) ltac:(lia)). rewrite rsum_S in *. lra.
Qed.
Lemma bnear_support : forall dim n c x l, (0 < n)%nat -> lattice dim n c -> bnear dim n c x -> (l <= dim)%nat -> bary dim x l = 0 -> bary dim c l = 0.
Proof.
  intros dim n c x l Hn La B H Z. destruct (La l H) as (a & A). pose proof (bnear_single dim n c x l B H) as S. unfold bdiff in S. rewrite Z in S.
  replace (INR n * (bary dim c l - 0)) with (IZR a) in S by (rewrite <- A; ring). apply small_int in S. subst a.
  apply Rmult_integral in A. destruct A as [A|A]; [|exact A]. exfalso. revert A. apply not_0_INR. lia.
Qed.
Lemma move_near : forall dim n c x x' L s, (0 < n)%nat -> lattice dim n c -> bnear dim n c x ->
  NoDup L -> (length L <= 3)%nat -> (forall l, In l L -> (l <= dim)%nat /\ (s l <= dim)%nat) -> (forall l, (l <= dim)%nat -> ~ In l L -> bary dim x l = 0) ->
  (forall m, (m <= dim)%nat -> bary dim x' m = move s L (bary dim x) m) ->
  exists c', lattice dim n c' /\ bnear dim n c' x' /\ forall m, (m <= dim)%nat -> bary dim c' m = move s L (bary dim c) m.
Proof.
  intros dim n c x x' L s Hn La B D Len Bd Zx X'.
  assert (Zc : forall l, (l <= dim)%nat -> ~ In l L -> bary dim c l = 0).
  { intros l Hl I. apply (bnear_support dim n c x l); auto. }
  assert (Tot : rsum (S dim) (move s L (bary dim c)) = 1).
  { rewrite (rsum_ext _ _ (fun m => move s L (bary dim c) m * 1)) by (intros; ring).
    rewrite (move_sum s L (bary dim c) (S dim) (fun _ => 1)) by (intros l I; destruct (Bd l I); lia).
    rewrite (lsum_ext _ (bary dim c)) by (intros; ring).
    rewrite <- (rsum_lsum (S dim) L); [apply bary_total|assumption|intros l I; destruct (Bd l I); lia|]. intros l Hl I. apply Zc; [lia|assumption]. }
  set (c' := fun k => move s L (bary dim c) (S k)). exists c'.
  assert (Ec : forall m, (m <= dim)%nat -> bary dim c' m = move s L (bary dim c) m).
  { intros [|k] Hk; [|reflexivity]. cbn [bary]. rewrite Ssum_rsum. rewrite rsum_shift in Tot. unfold c'. lra. }
  split; [|split; [|exact Ec]].
  - intros m Hm. rewrite Ec by assumption. unfold move.
    assert (G : forall L0 : list nat, (forall l, In l L0 -> (l <= dim)%nat) ->
      exists a : Z, INR n * lsum (fun l => if Nat.eqb m (s l) then bary dim c l else 0) L0 = IZR a).
    { induction L0 as [|l L0 IH]; intros H0; [exists 0%Z; cbn; ring|]. destruct (IH (fun l I => H0 l (or_intror I))) as (a & A).
      destruct (La l (H0 l (or_introl eq_refl))) as (b & Bb). rewrite lsum_cons. destruct (Nat.eqb m (s l)).
      - exists (b + a)%Z. rewrite plus_IZR, <- A, <- Bb. ring.
      - exists a. rewrite <- A. ring. }
    apply G. intros l I. apply Bd. assumption.
  - intros i j Hi Hj.
    assert (Eq : forall i, (i <= S dim)%nat -> rsum i (bdiff dim n c' x') = rsum i (move s L (bdiff dim n c x))).
    { intros i0 Hi0. apply rsum_ext. intros m Hm. unfold bdiff at 1. rewrite Ec, X' by lia. unfold move.
      rewrite lsum_diff. apply lsum_ext. intros l I. unfold bdiff. destruct (Nat.eqb m (s l)); ring. }
    rewrite !Eq by assumption. apply three_ranges; [assumption| |].
    + intros l I. apply bnear_single; [assumption|]. apply Bd. assumption.
    + rewrite <- (rsum_lsum (S dim) L); [apply bdiff_total|assumption|intros l I; destruct (Bd l I); lia|].
      intros l Hl I. unfold bdiff. rewrite Zc, Zx by (auto; lia). ring.
Qed.
(** ** points of simplices *)
Lemma simplexPoint_comb : forall dim cs N w (v : nat -> Vec) x k, rsum N w = 1 -> (forall j, (j < dim)%nat -> x j = rsum N (fun i => w i * v i j)) ->
  simplexPoint dim cs x k = rsum N (fun i => w i * simplexPoint dim cs (v i) k).
Proof.
  intros dim cs N w v x k W E. unfold simplexPoint.
  assert (Bx : forall l, (l <= dim)%nat -> bary dim x l = rsum N (fun i => w i * bary dim (v i) l)).
  { intros [|j] Hj; cbn [bary]; [|apply E; lia]. rewrite Ssum_rsum, (rsum_ext dim x (fun j => rsum N (fun i => w i * v i j))) by (intros; apply E; assumption).
    rewrite (rsum_ext N (fun i => w i * (1 - Ssum dim (v i))) (fun i => w i - w i * rsum dim (v i))) by (intros; rewrite Ssum_rsum; ring).
    rewrite rsum_minus, W. f_equal. rewrite rsum_swap. apply rsum_ext. intros i Hi. rewrite <- rsum_scal. reflexivity. }
  rewrite Ssum_rsum. rewrite (rsum_ext (S dim) _ (fun l => rsum N (fun i => w i * (bary dim (v i) l * nth l cs (fun _ => 0) k)))).
  - rewrite rsum_swap. apply rsum_ext. intros i Hi. apply (rsum_scal (S dim) (w i)).
  - intros l Hl. rewrite Bx by lia. rewrite <- rsum_scal_r. apply rsum_ext. intros. ring.
Qed.
Lemma simplexPoint_agree : forall dim cs x y k, agree dim x y -> simplexPoint dim cs x k = simplexPoint dim cs y k.
Proof.
  intros dim cs x y k A. unfold simplexPoint. rewrite !Ssum_rsum. apply rsum_ext. intros [|l] Hl; cbn [bary]; [|rewrite A by lia; reflexivity].
  rewrite !Ssum_rsum. rewrite (rsum_ext dim x y) by exact A. reflexivity.
Qed.
Lemma finite_choice : forall N (P : nat -> nat -> Prop), (forall l, (l < N)%nat -> exists j, P l j) -> exists s, forall l, (l < N)%nat -> P l (s l).
Proof.
  induction N as [|N IH]; intros P H; [exists (fun _ => 0%nat); intros; lia|]. destruct (IH P) as (s & S); [intros; apply H; lia|].
  destruct (H N ltac:(lia)) as (j & J). exists (fun l => if Nat.eqb l N then j else s l). intros l Hl. destruct (Nat.eqb_spec l N) as [->|]; [assumption|apply S; lia].
Qed.
(** the common corners of a point *)
Lemma matching : forall m dim a b x x', length a = S dim -> length b = S dim -> conform m a b -> independent m b ->
  (forall l, (l <= dim)%nat -> 0 <= bary dim x l) -> (forall l, (l <= dim)%nat -> 0 <= bary dim x' l) ->
  (forall k, (k < m)%nat -> simplexPoint dim a x k = simplexPoint dim b x' k) ->
  exists L s, NoDup L /\ (forall l, In l L -> (l <= dim)%nat /\ (s l <= dim)%nat /\ agree m (nth l a (fun _ => 0)) (nth (s l) b (fun _ => 0)))
    /\ (forall l, (l <= dim)%nat -> ~ In l L -> bary dim x l = 0)
    /\ (forall j, (j <= dim)%nat -> bary dim x' j = move s L (bary dim x) j).
Proof.
  intros m dim a b x x' La Lb C I P P' E.
  assert (H : in_hull m b (simplexPoint dim a x)).
  { exists (bary dim x'). change (@length (nat -> R) b) with (@length Vec b). rewrite Lb, Ssum_rsum. split; [intros; apply P'; lia|]. split; [apply bary_total|].
    intros k Hk. rewrite E by assumption. reflexivity. }
  assert (K : forall l, (l < S dim)%nat -> exists j, 0 < bary dim x l -> (j <= dim)%nat /\ agree m (nth l a (fun _ => 0)) (nth j b (fun _ => 0))).
  { intros l Hl. destruct (Rlt_dec 0 (bary dim x l)) as [Pl|Nl]; [|exists 0%nat; intros; contradiction].
    destruct (C (simplexPoint dim a x) (bary dim x)) with (i := l) as (c' & Ic & A); rewrite ?La; try assumption.
    - intros; apply P; lia.
    - rewrite Ssum_rsum. apply bary_total.
    - intros k Hk. reflexivity.
    - destruct (In_nth _ _ (fun _ => 0) Ic) as (j & Hj & Ej). exists j. intros _. split; [apply Nat.lt_succ_r; rewrite <- Lb; exact Hj|]. rewrite <- Ej in A. exact A. }
  destruct (finite_choice _ _ K) as (s & S).
  set (L := filter (fun l => if Rlt_dec 0 (bary dim x l) then true else false) (seq 0 (Datatypes.S dim))).
  assert (InL : forall l, In l L <-> (l <= dim)%nat /\ 0 < bary dim x l).
  { intros l. unfold L. rewrite filter_In, in_seq. destruct (Rlt_dec 0 (bary dim x l)); intuition (try lia; try congruence; try lra). }
  exists L, s.
  assert (D : NoDup L) by (apply NoDup_filter, seq_NoDup).
  assert (Bd : forall l, In l L -> (l <= dim)%nat /\ (s l <= dim)%nat /\ agree m (nth l a (fun _ => 0)) (nth (s l) b (fun _ => 0))).
  { intros l J. apply InL in J. destruct J as [J1 J2]. split; [assumption|]. apply S; [lia|assumption]. }
  assert (Z : forall l, (l <= dim)%nat -> ~ In l L -> bary dim x l = 0).
  { intros l Hl J. specialize (P l Hl). destruct (Rlt_dec 0 (bary dim x l)); [exfalso; apply J, InL; auto|lra]. }
  split; [assumption|]. split; [assumption|]. split; [assumption|].
  intros j Hj. apply (I (bary dim x') (move s L (bary dim x))); rewrite ?Lb, ?Ssum_rsum.
  - apply bary_total.
  - rewrite (rsum_ext _ _ (fun m => move s L (bary dim x) m * 1)) by (intros; ring).
    rewrite (move_sum s L (bary dim x) (Datatypes.S dim) (fun _ => 1)) by (intros l J; destruct (Bd l J) as (? & ? & _); lia).
    rewrite (lsum_ext _ (bary dim x)) by (intros; ring).
    rewrite <- (rsum_lsum (Datatypes.S dim) L); [apply bary_total|assumption|intros l J; destruct (Bd l J); lia|]. intros l Hl J. apply Z; [lia|assumption].
  - intros k Hk. specialize (E k Hk). unfold simplexPoint in E.
    transitivity (rsum (Datatypes.S dim) (fun l => bary dim x l * nth l a (fun _ => 0) k)); [exact (eq_sym E)|].
    symmetry. etransitivity; [apply (move_sum s L (bary dim x) (Datatypes.S dim) (fun i => nth i b (fun _ => 0) k)); intros l J; destruct (Bd l J) as (? & ? & _); lia|].
    rewrite (rsum_lsum (Datatypes.S dim) L).
    + symmetry. apply lsum_ext. intros l J. destruct (Bd l J) as (_ & _ & A). rewrite A by assumption. reflexivity.
    + assumption.
    + intros l J. destruct (Bd l J). lia.
    + intros l Hl J. rewrite Z by (auto; lia). ring.
  - lia.
Qed.
(** the refined elements of the two simplices *)
Lemma neighbour_conform : forall m dim n a b p q o p' q' o', (0 < dim)%nat -> (0 < n)%nat ->
  isPerm dim p -> isPerm dim q -> (forall i, (i < dim)%nat -> q (p i) = i) -> (forall i, (i < dim)%nat -> p (q i) = i) ->
  isPerm dim p' -> isPerm dim q' -> (forall i, (i < dim)%nat -> q' (p' i) = i) -> (forall i, (i < dim)%nat -> p' (q' i) = i) ->
  (forall x, kuhnQ (Rle 0) dim p (local0 dim n o x) -> inSimplex dim x) -> (forall x, kuhnQ (Rle 0) dim p' (local0 dim n o' x) -> inSimplex dim x) ->
  length a = S dim -> length b = S dim -> conform m a b -> independent m b ->
  (exists C, (length C <= 3)%nat /\ forall i, (i <= dim)%nat -> (exists c', In c' b /\ agree m (nth i a (fun _ => 0)) c') -> In i C) ->
  conform m (map (fun i => simplexPoint dim a (Gmap dim p o n (sc i))) (seq 0 (dim + 1))) (map (fun i => simplexPoint dim b (Gmap dim p' o' n (sc i))) (seq 0 (dim + 1))).
Proof.
  intros m dim n a b p q o p' q' o' H Hn P Q qp pq P' Q' qp' pq' In1 In2 La Lb C Id (Co & LC & IC) X w W0 W1 E I i Hi Wi.
  rewrite map_length, seq_length in *. rewrite Nat.add_1_r in *. rewrite Ssum_rsum in W1.
  set (x := fun k => rsum (S dim) (fun i => w i * Gmap dim p o n (sc i) k)).
  assert (Ex : forall k, (k < dim)%nat -> x k = rsum (S dim) (fun i => w i * Gmap dim p o n (sc i) k)) by (intros; reflexivity).
  assert (EX : forall k, (k < m)%nat -> X k = simplexPoint dim a x k).
  { intros k Hk. rewrite E by assumption. rewrite Ssum_rsum. rewrite (simplexPoint_comb dim a (S dim) w (fun i => Gmap dim p o n (sc i)) x k W1 Ex).
    apply rsum_ext. intros j Hj. rewrite nth_map_seq by assumption. reflexivity. }
  destruct I as (w' & V0 & V1 & V2). rewrite map_length, seq_length in *. rewrite Ssum_rsum in V1.
  set (x' := fun k => rsum (S dim) (fun i => w' i * Gmap dim p' o' n (sc i) k)).
  assert (Ex' : forall k, (k < dim)%nat -> x' k = rsum (S dim) (fun i => w' i * Gmap dim p' o' n (sc i) k)) by (intros; reflexivity).
  assert (EX' : forall k, (k < m)%nat -> X k = simplexPoint dim b x' k).
  { intros k Hk. rewrite V2 by assumption. rewrite Ssum_rsum. rewrite (simplexPoint_comb dim b (S dim) w' (fun i => Gmap dim p' o' n (sc i)) x' k V1 Ex').
    apply rsum_ext. intros j Hj. rewrite nth_map_seq by assumption. reflexivity. }
  destruct (weight_chain dim n p q o x w 0 H P qp pq Q Hn ltac:(lia) W1 Ex) as [_ K]. specialize (K ltac:(intros; apply W0; lia)).
  destruct (weight_chain dim n p' q' o' x' w' 0 H P' qp' pq' Q' Hn ltac:(lia) V1 Ex') as [_ K']. specialize (K' ltac:(intros; apply V0; lia)).
  assert (Bp : forall x, inSimplex dim x -> forall l, (l <= dim)%nat -> 0 <= bary dim x l).
  { intros y [Y1 Y2] [|l] Hl; cbn [bary]; [lra|apply Y1; lia]. }
  destruct (matching m dim a b x x' La Lb C Id (Bp x (In1 x K)) (Bp x' (In2 x' K'))) as (L & s & D & Bd & Z & Mv).
  { intros k Hk. rewrite <- EX, <- EX' by assumption. reflexivity. }
  set (c := Gmap dim p o n (sc i)).
  assert (Lc : lattice dim n c) by (apply (corner_lattice dim n p q o i); auto; lia).
  assert (Nc : bnear dim n c x) by (apply (carrier_bnear dim n p q o x w i); auto; try lia; intros; apply W0; lia).
  assert (Len : (length L <= 3)%nat).
  { apply Nat.le_trans with (length Co); [|assumption]. apply NoDup_incl_length; [assumption|]. intros l J. destruct (Bd l J) as (J1 & J2 & A).
    apply IC; [assumption|]. exists (nth (s l) b (fun _ => 0)). split; [apply nth_In; lia|assumption]. }
  destruct (move_near dim n c x x' L s Hn Lc Nc D Len) as (c' & Lc' & Nc' & Ec'); auto.
  { intros l J. destruct (Bd l J) as (? & ? & _). auto. }
  destruct (bnear_corner dim n p' q' o' x' c' H P' qp' pq' Q' Hn K' Lc' Nc') as (i' & Hi' & A).
  exists (simplexPoint dim b (Gmap dim p' o' n (sc i'))). split; [apply in_map_iff; exists i'; split; [reflexivity|]; apply in_seq; lia|].
  rewrite nth_map_seq by lia. fold c. intros k Hk. rewrite <- (simplexPoint_agree dim b _ _ k A).
  unfold simplexPoint. rewrite !Ssum_rsum.
  rewrite (rsum_ext (S dim) (fun l => bary dim c' l * _) (fun l => move s L (bary dim c) l * nth l b (fun _ => 0) k)) by (intros l Hl; rewrite Ec' by lia; reflexivity).
  rewrite (move_sum s L (bary dim c) (S dim) (fun l => nth l b (fun _ => 0) k)) by (intros l J; destruct (Bd l J) as (? & ? & _); lia).
  rewrite (rsum_lsum (S dim) L).
  - apply lsum_ext. intros l J. destruct (Bd l J) as (_ & _ & G). rewrite G by assumption. reflexivity.
  - assumption.
  - intros l J. destruct (Bd l J). lia.
  - intros l Hl J. rewrite (bnear_support dim n c x l Hn Lc Nc ltac:(lia) (Z l ltac:(lia) J)). ring.
Qed.

(** ** images under injective affine maps *)
Lemma conform_image : forall dim F d cs cs', affdet dim F d -> injective_on dim F -> conform dim cs cs' -> conform dim (map F cs) (map F cs').
Proof.
  intros dim F d cs cs' HF Inj C X w W0 W1 E I i Hi Wi. rewrite map_length in *.
  assert (Nth : forall l i, (i < length l)%nat -> nth i (map F l) (fun _ => 0) = F (nth i l (fun _ => 0))).
  { intros l j Hj. rewrite (nth_indep _ _ (F (fun _ => 0))) by (rewrite map_length; assumption). apply map_nth. }
  set (x := fun k => rsum (length cs) (fun i => w i * nth i cs (fun _ => 0) k)).
  rewrite Ssum_rsum in W1.
  assert (EX : agree dim X (F x)).
  { intros k Hk. rewrite E by assumption. rewrite Ssum_rsum. rewrite (affdet_comb dim F d w (length cs) (fun i => nth i cs (fun _ => 0)) HF W1 x) by (auto; intros; reflexivity).
    apply rsum_ext. intros j Hj. rewrite Nth by assumption. reflexivity. }
  destruct I as (w' & V0 & V1 & V2). rewrite map_length in *. rewrite Ssum_rsum in V1.
  set (x' := fun k => rsum (length cs') (fun i => w' i * nth i cs' (fun _ => 0) k)).
  assert (EX' : agree dim X (F x')).
  { intros k Hk. rewrite V2 by assumption. rewrite Ssum_rsum. rewrite (affdet_comb dim F d w' (length cs') (fun i => nth i cs' (fun _ => 0)) HF V1 x') by (auto; intros; reflexivity).
    apply rsum_ext. intros j Hj. rewrite Nth by assumption. reflexivity. }
  assert (A : agree dim x x') by (apply Inj; intros k Hk; rewrite <- EX, <- EX' by assumption; reflexivity).
  destruct (C x w) with (i := i) as (c' & Ic & Ac); auto.
  - exists w'. split; [assumption|]. split; [exact V1|]. intros k Hk. rewrite A by assumption. reflexivity.
  - exists (F c'). split; [apply in_map; assumption|]. rewrite Nth by assumption. apply (affdet_agree dim F d); assumption.
Qed.
(** the corners of the image of the reference simplex *)
Lemma independent_image : forall dim G d, affdet dim G d -> injective_on dim G -> independent dim (map (fun i => G (sc i)) (seq 0 (dim + 1))).
Proof.
  intros dim G d HG Inj u v U V E i Hi. rewrite map_length, seq_length in *. rewrite Nat.add_1_r in *. rewrite Ssum_rsum in U, V.
  assert (A : agree dim (fun k => u (S k)) (fun k => v (S k))).
  { apply Inj. intros k Hk. specialize (E k Hk). rewrite !Ssum_rsum in E.
    rewrite (affdet_comb dim G d u (S dim) sc HG U (fun k => u (S k))) by (auto; intros; symmetry; apply sc_sum; assumption).
    rewrite (affdet_comb dim G d v (S dim) sc HG V (fun k => v (S k))) by (auto; intros; symmetry; apply sc_sum; assumption).
    rewrite (rsum_ext (S dim) (fun i => u i * _) (fun i => u i * G (sc i) k)) in E by (intros; rewrite nth_map_seq by assumption; reflexivity).
    rewrite (rsum_ext (S dim) (fun i => v i * _) (fun i => v i * G (sc i) k)) in E by (intros; rewrite nth_map_seq by assumption; reflexivity).
    exact E. }
  destruct i as [|k]; [|apply A; lia]. rewrite rsum_shift in U, V. rewrite (rsum_ext dim _ (fun k => v (S k))) in U by exact A. lra.
Qed.
Lemma simplexPoint_image : forall dim G d x, affdet dim G d -> agree dim (simplexPoint dim (map (fun i => G (sc i)) (seq 0 (dim + 1))) x) (G x).
Proof.
  intros dim G d x HG k Hk. unfold simplexPoint. rewrite Ssum_rsum.
  rewrite (affdet_comb dim G d (bary dim x) (S dim) sc HG (bary_total dim x) x); auto.
  - apply rsum_ext. intros l Hl. rewrite nth_map_seq by lia. reflexivity.
  - intros j Hj. rewrite sc_sum by assumption. reflexivity.
Qed.
Lemma conform_agree : forall m (f f' g g' : nat -> Vec) N, (forall i, (i < N)%nat -> agree m (f i) (f' i)) -> (forall i, (i < N)%nat -> agree m (g i) (g' i)) ->
  conform m (map f (seq 0 N)) (map g (seq 0 N)) -> conform m (map f' (seq 0 N)) (map g' (seq 0 N)).
Proof.
  intros m f f' g g' N Ef Eg C X w W0 W1 E I i Hi Wi. rewrite map_length, seq_length in *.
  destruct (C X w) with (i := i) as (c' & Ic & Ac); rewrite ?map_length, ?seq_length; auto.
  - intros k Hk. rewrite E, !Ssum_rsum by assumption. apply rsum_ext. intros j Hj. rewrite !nth_map_seq by assumption. rewrite (Ef j Hj k Hk). reflexivity.
  - destruct I as (w' & V0 & V1 & V2). exists w'. rewrite map_length, seq_length in *. split; [assumption|]. split; [assumption|].
    intros k Hk. rewrite V2, !Ssum_rsum by assumption. apply rsum_ext. intros j Hj. rewrite !nth_map_seq by assumption. rewrite (Eg j Hj k Hk). reflexivity.
  - apply in_map_iff in Ic. destruct Ic as (j & <- & J). apply in_seq in J. exists (g' j). split; [apply in_map_iff; exists j; split; [reflexivity|apply in_seq; lia]|].
    rewrite nth_map_seq in * by assumption. intros k Hk. rewrite <- (Ef i Hi k Hk), <- (Eg j ltac:(lia) k Hk). apply Ac. assumption.
Qed.
