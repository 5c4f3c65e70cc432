(** Property theorems C09 - C15 and C56: topology of the reference elements. *)
From Coq Require Import NArith ZArith PeanoNat Bool List Lia Sorted.
From Verif Require Import M_Type M_TypeIndex M_RefTopo P_Type P_Type2 S_Topo P_Topo P_RefTopo P_RefTopo2 P_RefTopo3.
Import ListNotations.

(** ** C09 geometryTypeFromVertexCount *)

(** the full claim ("exactly n vertices") fails: dims 0 and 1 accept every n *)
Theorem C09_vertex_count_refuted :
  exists dim n t, geometryTypeFromVertexCount dim n = Some t
                  /\ size (gt_id t) (gt_dim t) (gt_dim t) <> n.
Proof. exists 1, 17, line. split; [reflexivity|]. cbn. discriminate. Qed.
Print Assumptions C09_vertex_count_refuted.

Theorem C09_vertex_count_partial :
  forall dim n t, geometryTypeFromVertexCount dim n = Some t ->
    gt_dim t = dim /\ gt_none t = false /\ (gt_id t < 2 ^ N.of_nat dim)%N
    /\ (2 <= dim -> size (gt_id t) dim dim = n).
Proof.
  intros dim n t. unfold geometryTypeFromVertexCount.
  destruct dim as [|[|[|[|d]]]]; [| |do 5 (try (destruct n as [|n]; try discriminate))
    |do 9 (try (destruct n as [|n]; try discriminate))|discriminate];
    intros E; injection E as <-; repeat split; auto; lia.
Qed.
Print Assumptions C09_vertex_count_partial.

(** every type of dimension <= 3 is found from its vertex count, and nothing else is *)
Theorem C09_vertex_count_complete :
  forall t, gt_none t = false -> (gt_id t < 2 ^ N.of_nat (gt_dim t))%N ->
    match geometryTypeFromVertexCount (gt_dim t) (size (gt_id t) (gt_dim t) (gt_dim t)) with
    | Some t' => gt_eqb t' t = true
    | None => 3 < gt_dim t
    end.
Proof.
  intros [d nn id] Hn Hid. cbn [gt_dim gt_none gt_id] in *. subst nn.
  destruct d as [|[|[|[|d]]]]; [| | | |cbn [geometryTypeFromVertexCount]; lia];
    simpl in Hid; destruct id as [|p]; try reflexivity;
    do 3 (try (destruct p as [p|p|]; try reflexivity; try lia)).
Qed.
Print Assumptions C09_vertex_count_complete.

Theorem C09_vertex_count_rejects :
  forall dim n, 2 <= dim -> geometryTypeFromVertexCount dim n = None ->
    3 < dim \/ forall id, (id < 2 ^ N.of_nat dim)%N -> size id dim dim <> n.
Proof.
  intros dim n Hd H. destruct (Nat.le_gt_cases dim 3); [right|now left].
  intros id Hid E.
  pose proof (C09_vertex_count_complete (mkGT dim false id) eq_refl Hid) as Q.
  cbn [gt_dim gt_id] in Q. rewrite E, H in Q. lia.
Qed.
Print Assumptions C09_vertex_count_rejects.

Example C09_example : geometryTypeFromVertexCount 3 6 = Some prism /\ size 5 3 3 = 6
                      /\ geometryTypeFromVertexCount 3 7 = None.
Proof. repeat split. Qed.

(** ** C10 number of subentities *)

Theorem C10_simplex_size :
  forall dim c, c <= dim -> size 0 dim c = binomial (dim + 1) c.
Proof.
  intros dim c H. rewrite size_tsize, topo_of_simplex, tsize_Simp by assumption.
  now rewrite Nat.add_1_r.
Qed.
Print Assumptions C10_simplex_size.

Theorem C10_cube_size :
  forall dim c, c <= dim -> size (2 ^ N.of_nat dim - 1) dim c = binomial dim c * 2 ^ c.
Proof.
  intros dim c H. rewrite size_tsize, <- bit_pow, topo_of_cube_gen by auto. apply tsize_Cub.
Qed.
Print Assumptions C10_cube_size.

Theorem C10_size_positive :
  forall id dim c, c <= dim -> 1 <= size id dim c.
Proof.
  intros id dim c H. rewrite size_tsize by assumption. apply tsize_pos. now rewrite tdim_topo_of.
Qed.
Print Assumptions C10_size_positive.

(** Euler relation: sum_{c=0}^{dim} (-1)^(dim-c) size(c) = 1 *)
Theorem C10_euler :
  forall id dim,
    fold_right Z.add 0%Z
      (map (fun c => (-1) ^ Z.of_nat (dim - c) * Z.of_nat (size id dim c))%Z (seq 0 (S dim)))
    = 1%Z.
Proof.
  intros id dim. rewrite <- (euler_1 (topo_of id dim)). unfold euler. rewrite tdim_topo_of.
  assert (X : forall n f, fold_right Z.add 0%Z (map f (seq 0 n)) = sumZ n f).
  { induction n as [|n IH]; intros f; [reflexivity|].
    rewrite sumZ_shift. cbn [seq map fold_right]. now rewrite <- seq_shift, map_map, IH. }
  rewrite X. apply sumZ_ext. intros c Hc. rewrite size_tsize by lia. f_equal.
  generalize (dim - c). clear. intros k. induction k as [|k IH]; [reflexivity|].
  rewrite sgn_S, <- IH, Nat2Z.inj_succ, Z.pow_succ_r by lia. lia.
Qed.
Print Assumptions C10_euler.

(** the reference element reports these numbers *)
Theorem C10_reference_element_size :
  forall id dim, (id < 2 ^ N.of_nat dim)%N ->
    exists r, re_infos id dim = Some r /\ forall c, c <= dim -> re_size r c = size id dim c.
Proof.
  intros id dim Hid. rewrite <- bit_pow in Hid. destruct (re_infos_spec id dim Hid) as (r & E & OK).
  exists r. split; [assumption|]. intros c Hc. rewrite (ok_re_size _ _ _ OK) by assumption.
  now rewrite size_tsize.
Qed.
Print Assumptions C10_reference_element_size.

Example C10_example : map (size 5 3) [0;1;2;3] = [1;5;9;6] /\ map (size 3 3) [0;1;2;3] = [1;5;8;5].
Proof. split; reflexivity. Qed.

(** ** C11 the bitset is large enough *)

Theorem C11_bitset_bound :
  forall id dim c, c <= dim -> size id dim c <= maxSubEntityCount dim.
Proof.
  intros id dim c H. rewrite size_tsize by assumption.
  pose proof (tsize_le_max (topo_of id dim) c) as Q. rewrite tdim_topo_of in Q. auto.
Qed.
Print Assumptions C11_bitset_bound.

(** the bound is attained (by the cube), so it cannot be lowered *)
Theorem C11_bitset_bound_sharp :
  forall dim, exists c, c <= dim /\ size (2 ^ N.of_nat dim - 1) dim c = maxSubEntityCount dim.
Proof.
  intros dim.
  assert (X : forall l a, (exists c, In c l /\ binomial dim c * 2 ^ c
      = fold_left (fun m c => Nat.max m (binomial dim c * Nat.pow 2 c)) l a)
      \/ fold_left (fun m c => Nat.max m (binomial dim c * Nat.pow 2 c)) l a = a).
  { induction l as [|x l IH]; intros a; [now right|]. cbn [fold_left].
    destruct (IH (Nat.max a (binomial dim x * 2 ^ x))) as [(c & Hc & E)|E].
    - left. exists c. split; [now right|assumption].
    - rewrite E. destruct (Nat.max_spec a (binomial dim x * 2 ^ x)) as [[_ M]|[_ M]]; rewrite M; [|now right].
      left. exists x. split; [now left|reflexivity]. }
  destruct (X (seq 0 (S dim)) 0) as [(c & Hc & E)|E].
  - apply in_seq in Hc. exists c. split; [lia|]. rewrite C10_cube_size by lia. exact E.
  - exfalso. pose proof (C11_bitset_bound 0 dim 0 ltac:(lia)) as L.
    pose proof (C10_size_positive 0 dim 0 ltac:(lia)). unfold maxSubEntityCount in L. lia.
Qed.
Print Assumptions C11_bitset_bound_sharp.

(** constructing the reference element (which sets all bits) never leaves an array *)
Theorem C11_construction_safe :
  forall id dim, (id < 2 ^ N.of_nat dim)%N -> re_infos id dim <> None.
Proof.
  intros id dim Hid. destruct (C10_reference_element_size id dim Hid) as (r & E & _). congruence.
Qed.
Print Assumptions C11_construction_safe.

Example C11_example : maxSubEntityCount 3 = 12 /\ size 7 3 2 = 12.
Proof. split; reflexivity. Qed.

(** ** C12 types of subentities *)

Lemma re_type_face id dim r i c t :
  (id < bit dim)%N -> re_infos id dim = Some r -> c <= dim -> i < re_size r c ->
  re_type r i c = Some t ->
  exists f, is_face (topo_of id dim) f /\ fcod (topo_of id dim) f = c /\ fidx (topo_of id dim) f = i
    /\ t = GT2 (subTopologyId id dim c i) (dim - c)
    /\ topo_of (subTopologyId id dim c i) (dim - c) = ftype (topo_of id dim) f
    /\ (subTopologyId id dim c i < bit (dim - c))%N.
Proof.
  intros Hid Hr Hc Hi Ht. destruct (re_infos_spec id dim Hid) as (r' & E & OK).
  rewrite Hr in E. injection E as <-.
  destruct (re_face id dim r i c OK Hc Hi) as (f & Hf & Ec & Ei & s & Es & I).
  unfold re_type in Ht. rewrite Es in Ht. cbn [obind] in Ht. injection Ht as Ht.
  exists f. rewrite (ok_type _ _ _ _ I), Ec, Ei in Ht.
  pose proof (subTopologyId_spec dim id f Hid Hf) as Q. cbv zeta in Q. rewrite Ec, Ei in Q.
  destruct Q. repeat split; auto.
Qed.

Theorem C12_subentity_type_valid :
  forall id dim r i c, (id < 2 ^ N.of_nat dim)%N -> dim < 256 -> re_infos id dim = Some r ->
    c <= dim -> i < re_size r c ->
    exists t, re_type r i c = Some t /\ gt_dim t = dim - c /\ gt_none t = false
              /\ (gt_id t < 2 ^ N.of_nat (dim - c))%N.
Proof.
  intros id dim r i c Hid Hd Hr Hc Hi. rewrite <- bit_pow in Hid.
  assert (exists t, re_type r i c = Some t) as [t Ht].
  { destruct (re_infos_spec id dim Hid) as (r' & E & OK). rewrite Hr in E. injection E as <-.
    destruct (re_face id dim r i c OK Hc Hi) as (f & Hf & Ec & Ei & s & Es & I).
    unfold re_type. rewrite Es. cbn [obind]. eauto. }
  exists t. split; [assumption|].
  destruct (re_type_face id dim r i c t Hid Hr Hc Hi Ht) as (f & _ & _ & _ & E & _ & L).
  subst t. unfold GT2. cbn [gt_dim gt_none gt_id]. rewrite to_uchar_small by lia.
  rewrite <- bit_pow. auto.
Qed.
Print Assumptions C12_subentity_type_valid.

Theorem C12_own_type :
  forall id dim r, (id < 2 ^ N.of_nat dim)%N -> re_infos id dim = Some r ->
    re_type r 0 0 = Some (GT2 id dim).
Proof.
  intros id dim r Hid Hr. rewrite <- bit_pow in Hid.
  destruct (re_infos_spec id dim Hid) as (r' & E & OK). rewrite Hr in E. injection E as <-.
  destruct (re_face id dim r 0 0 OK) as (f & Hf & Ec & Ei & s & Es & I); [lia| |].
  { rewrite (ok_re_size _ _ _ OK) by lia. rewrite tsize_0. lia. }
  unfold re_type. rewrite Es. cbn [obind]. rewrite (ok_type _ _ _ _ I), Ec, Ei, Nat.sub_0_r.
  destruct dim; reflexivity.
Qed.
Print Assumptions C12_own_type.

Theorem C12_simplex_subentities :
  forall id dim r i c t, (id < 2 ^ N.of_nat dim)%N -> dim < 256 -> re_infos id dim = Some r ->
    c <= dim -> i < re_size r c -> re_type r i c = Some t ->
    isSimplex (GT2 id dim) = true -> isSimplex t = true.
Proof.
  intros id dim r i c t Hid Hd Hr Hc Hi Ht HS. rewrite <- bit_pow in Hid.
  destruct (re_type_face id dim r i c t Hid Hr Hc Hi Ht) as (f & Hf & _ & _ & E & U & L).
  subst t. apply isSimplex_simT in HS; auto. apply isSimplex_simT; auto.
  rewrite U. now apply simT_ftype.
Qed.
Print Assumptions C12_simplex_subentities.

Theorem C12_cube_subentities :
  forall id dim r i c t, (id < 2 ^ N.of_nat dim)%N -> dim < 256 -> re_infos id dim = Some r ->
    c <= dim -> i < re_size r c -> re_type r i c = Some t ->
    isCube (GT2 id dim) = true -> isCube t = true.
Proof.
  intros id dim r i c t Hid Hd Hr Hc Hi Ht HS. rewrite <- bit_pow in Hid.
  destruct (re_type_face id dim r i c t Hid Hr Hc Hi Ht) as (f & Hf & _ & _ & E & U & L).
  subst t. apply isCube_cubT in HS; auto. apply isCube_cubT; auto; [lia|].
  rewrite U. now apply cubT_ftype.
Qed.
Print Assumptions C12_cube_subentities.

(** the facets of a prismatic (conical) extension: the facets of the base extended the
    same way, plus copies of the base *)
Theorem C12_facets_by_construction :
  forall id dim, (id < 2 ^ N.of_nat (S dim))%N -> 1 <= dim ->
    let base := N.land id (2 ^ N.of_nat dim - 1) in
    let n := size base dim 1 in
    if N.testbit id (N.of_nat dim)
    then size id (S dim) 1 = n + 2
         /\ (forall i, i < n -> subTopologyId id (S dim) 1 i
               = (subTopologyId base dim 1 i + 2 ^ N.of_nat (dim - 1))%N)
         /\ subTopologyId id (S dim) 1 n = base /\ subTopologyId id (S dim) 1 (S n) = base
    else size id (S dim) 1 = S n /\ subTopologyId id (S dim) 1 0 = base
         /\ (forall i, i < n -> subTopologyId id (S dim) 1 (S i) = subTopologyId base dim 1 i).
Proof.
  intros id dim Hid Hdim base n.
  assert (EB : baseTopologyId id (S dim) 1 = base)
    by (unfold baseTopologyId, base; rewrite bit_pow; now replace (S dim - 1) with dim by lia).
  assert (P : isPrism id (S dim) 0 = N.testbit id (N.of_nat dim)).
  { rewrite isPrism_bit. destruct dim; [lia|]. apply orb_false_r. }
  assert (Z : forall b d, size b d 0 = 1) by (intros ? []; reflexivity).
  assert (I0 : forall b d i, subTopologyId b d 0 i = b) by (intros ? [] ?; reflexivity).
  assert (B : (base < bit dim)%N).
  { unfold base. rewrite bit_pow, N.sub_1_r, <- N.ones_equiv, N.land_ones. apply N.mod_lt.
    apply N.pow_nonzero. discriminate. }
  cbn [size subTopologyId]. rewrite EB, P, !Z.
  destruct (Nat.ltb_spec 1 (S dim)); [|lia]. fold n.
  replace (S dim - 1 - 1) with (dim - 1) by lia.
  destruct (N.testbit id (N.of_nat dim)).
  - split; [lia|]. split; [|split].
    + intros i Hi. destruct (Nat.ltb_spec i n); [|lia].
      unfold n in Hi. rewrite size_tsize in Hi by assumption.
      destruct (nth_face_ex (topo_of base dim) 1 i Hi) as (f & _ & F1 & F2 & F3).
      pose proof (subTopologyId_spec dim base f B F1) as Q. cbv zeta in Q. rewrite F2, F3 in Q.
      destruct Q as [_ Q]. set (x := subTopologyId base dim 1 i) in *.
      rewrite N.shiftl_1_l, <- bit_pow.
      rewrite <- (N.lxor_lor x (bit (dim - 1))), <- N.add_nocarry_lxor; auto.
      all: apply N.bits_inj; intros k; rewrite N.land_spec, N.bits_0, bit_testbit;
        destruct (N.eqb_spec k (N.of_nat (dim - 1))) as [->|]; rewrite ?andb_false_r; auto;
        rewrite (proj1 (lt_bit_bits _ _) Q); auto; lia.
    + destruct (Nat.ltb_spec n n); [lia|]. apply I0.
    + destruct (Nat.ltb_spec (S n) n); [lia|]. apply I0.
  - split; [lia|]. split.
    + destruct (Nat.ltb_spec 0 1); [|lia]. apply I0.
    + intros i Hi. destruct (Nat.ltb_spec (S i) 1); [lia|].
      rewrite N.shiftl_0_l, N.lor_0_r. now replace (S i - 1) with i by lia.
Qed.
Print Assumptions C12_facets_by_construction.

Example C12_example :
  let get i c := obind (re_infos 5 3) (fun r => re_type r i c) in
  get 0 1 = Some quadrilateral /\ get 3 1 = Some (GT2 1 2) /\ gt_eqb (GT2 1 2) triangle = true
  /\ get 9 1 = None.
Proof. vm_compute. repeat split. Qed.

(** ** C13 numbering *)

(** [subTopologyNumbering] as a function on memory: handed the slots [b..e) of an array
    of arbitrary contents (in particular uninitialised), it terminates without a fault,
    leaves every other slot alone, and the slots contain a strictly increasing sequence
    of numbers of existing subentities of codimension c+sc. *)
Theorem C13_numbering_memory :
  forall id dim c i sc b e (mem : Mem),
    (id < 2 ^ N.of_nat dim)%N -> c + sc <= dim -> i < size id dim c ->
    e = b + size (subTopologyId id dim c i) (dim - c) sc -> e <= length mem ->
    exists mem', subTopologyNumbering id dim c i sc b e mem = Some mem'
      /\ length mem' = length mem
      /\ (forall p, p < b \/ e <= p -> nth_error mem' p = nth_error mem p)
      /\ (forall p, b <= p < e -> exists v, rd mem' p = Some v /\ v < size id dim (c + sc))
      /\ (forall p q v w, b <= p -> p < q -> q < e ->
            rd mem' p = Some v -> rd mem' q = Some w -> v < w).
Proof.
  intros id dim c i sc b e mem Hid Hc Hi He Hm. rewrite <- bit_pow in Hid.
  rewrite size_tsize in Hi by lia.
  destruct (nth_face_ex (topo_of id dim) c i Hi) as (f & _ & F1 & F2 & F3).
  pose proof (subTopologyId_spec dim id f Hid F1) as Q. cbv zeta in Q. rewrite F2, F3 in Q.
  destruct Q as [Q _]. rewrite size_tsize, Q in He by lia.
  pose proof (subTopologyNumbering_spec dim id f sc b e mem Hid F1 ltac:(lia) He Hm) as W.
  rewrite F2, F3 in W. destruct W as (m' & E & W1 & W2).
  set (l := subnums (topo_of id dim) f sc) in *.
  assert (Ll : b + length l = e) by (unfold l; rewrite subnums_length; lia).
  assert (In_ : forall p, b <= p < e -> rd m' p = nth_error l (p - b)
                 /\ exists v, nth_error l (p - b) = Some v).
  { intros p Hp. unfold rd. rewrite W2.
    destruct (andb_true_intro (conj (proj2 (Nat.leb_le b p) (proj1 Hp))
       (proj2 (Nat.ltb_lt p (b + length l)) ltac:(lia)))).
    destruct (nth_error l (p - b)) eqn:N; [|apply nth_error_None in N; lia].
    destruct (Nat.leb_spec b p); [|lia]. destruct (Nat.ltb_spec p (b + length l)); [|lia].
    cbn [andb]. eauto. }
  exists m'. split; [assumption|]. split; [assumption|]. split; [|split].
  - intros p Hp. rewrite W2.
    destruct (Nat.leb_spec b p); [|reflexivity].
    destruct (Nat.ltb_spec p (b + length l)); [lia|reflexivity].
  - intros p Hp. destruct (In_ p Hp) as [R [v V]]. exists v. split; [congruence|].
    apply nth_error_In in V. apply (subnums_range _ _ _ _ F1) in V. rewrite F2 in V.
    now rewrite size_tsize.
  - intros p q v w Hp Hpq Hq Rp Rq.
    destruct (In_ p ltac:(lia)) as [R1 _]. destruct (In_ q ltac:(lia)) as [R2 _].
    rewrite R1 in Rp. rewrite R2 in Rq.
    pose proof (subnums_sorted _ f sc F1) as S. fold l in S.
    revert Rp Rq. generalize (p - b) (q - b) (ltac:(lia) : p - b < q - b).
    clear - S. intros x y Hxy. revert x y Hxy.
    induction S as [|a r S IH FA]; intros x y Hxy.
    + destruct x; discriminate.
    + destruct x, y; try lia; cbn [nth_error].
      * intros E1 E2. injection E1 as <-. apply nth_error_In in E2.
        rewrite Forall_forall in FA. auto.
      * intros. eapply (IH x y); eauto. lia.
Qed.
Print Assumptions C13_numbering_memory.

(** The offsets fill an array of dim+2 entries exactly: no write behind its end; the entries are
    the positions of the blocks of subentities of one codimension. *)
Theorem C13_offset_array : forall subId dim codim, codim <= dim ->
  length (offsets subId dim codim) = dim + 2 /\
  (forall cc, cc <= codim -> nth_error (offsets subId dim codim) cc = Some 0) /\
  (forall cc, codim <= cc <= dim -> exists a, nth_error (offsets subId dim codim) cc = Some a /\
     nth_error (offsets subId dim codim) (cc + 1) = Some (a + size subId (dim - codim) (cc - codim))).
Proof.
  intros subId dim codim H. unfold offsets. set (f := fun cc => size subId (dim - codim) (cc - codim)).
  assert (L : forall l acc, length (running acc l) = length l) by (induction l as [|x l IH]; intro acc; cbn [running length]; [reflexivity|now rewrite IH]).
  assert (R : forall l acc k x, nth_error l k = Some x -> exists a, nth_error (acc :: running acc l) k = Some a /\ nth_error (running acc l) k = Some (a + x)).
  { induction l as [|y l IH]; intros acc k x E; [destruct k; discriminate|]. cbn [running]. destruct k as [|k]; cbn [nth_error] in *.
    - injection E as ->. exists acc. auto.
    - exact (IH (acc + y) k x E). }
  assert (Z : forall n cc, cc < n -> nth_error (repeat 0 n) cc = Some 0) by (induction n as [|n IH]; intros cc Hc; [lia|]; destruct cc; [reflexivity|apply IH; lia]).
  split; [rewrite app_length, repeat_length, L, map_length, seq_length; lia|]. split.
  - intros cc Hc. rewrite nth_error_app1 by (rewrite repeat_length; lia). apply Z. lia.
  - intros cc Hc. destruct (R (map f (seq codim (S dim - codim))) 0 (cc - codim) (f cc)) as (a & A1 & A2).
    { rewrite nth_error_map, (nth_error_nth' _ 0) by (rewrite seq_length; lia). rewrite seq_nth by lia. cbn [option_map]. do 2 f_equal. lia. }
    exists a. split.
    + destruct (Nat.eq_dec cc codim) as [->|N].
      * rewrite nth_error_app1 by (rewrite repeat_length; lia). rewrite Z by lia. rewrite Nat.sub_diag in A1. exact A1.
      * rewrite nth_error_app2 by (rewrite repeat_length; lia). rewrite repeat_length. replace (cc - codim) with (S (cc - (codim + 1))) in A1 by lia. exact A1.
    + rewrite nth_error_app2 by (rewrite repeat_length; lia). rewrite repeat_length. replace (cc + 1 - (codim + 1)) with (cc - codim) by lia. exact A2.
Qed.
Print Assumptions C13_offset_array.

(** API level *)
Theorem C13_subEntities_increasing :
  forall id dim r i c cc, (id < 2 ^ N.of_nat dim)%N -> re_infos id dim = Some r ->
    c <= dim -> i < re_size r c -> cc <= dim ->
    exists l, re_subEntities r i c cc = Some l
      /\ re_size3 r i c cc = Some (length l)
      /\ StronglySorted lt l
      /\ (forall k, In k l -> k < re_size r cc)
      /\ (forall ii, ii < length l -> re_subEntity r i c ii cc = nth_error l ii)
      /\ (forall t, re_type r i c = Some t ->
            length l = if cc <? c then 0 else size (gt_id t) (dim - c) (cc - c)).
Proof.
  intros id dim r i c cc Hid Hr Hc Hi Hcc. rewrite <- bit_pow in Hid.
  destruct (re_infos_spec id dim Hid) as (r' & E & OK). rewrite Hr in E. injection E as <-.
  destruct (re_face id dim r i c OK Hc Hi) as (f & Hf & Ec & Ei & s & Es & I).
  exists (want (topo_of id dim) f cc). unfold re_subEntities, re_size3, re_subEntity.
  rewrite Es. cbn [obind]. rewrite (ok_numbers _ _ _ _ I), (ok_size _ _ _ _ I) by assumption.
  split; [reflexivity|]. split; [reflexivity|]. split; [|split; [|split]].
  - unfold want. destruct (_ <=? cc); [now apply subnums_sorted|constructor].
  - intros k Hk. rewrite (ok_re_size _ _ _ OK) by assumption. apply (want_range _ f); auto.
    now rewrite tdim_topo_of.
  - intros ii Hii. now apply (ok_number _ _ _ _ I).
  - intros t Ht. destruct (re_type_face id dim r i c t Hid Hr Hc Hi Ht)
      as (f' & Hf' & Ec' & Ei' & -> & U & L).
    replace f' with f in * by (apply (fidx_inj (topo_of id dim)); auto; congruence).
    cbn [GT2 gt_id]. destruct (Nat.ltb_spec cc c).
    + unfold want. destruct (Nat.leb_spec (fcod (topo_of id dim) f) cc); [lia|reflexivity].
    + rewrite want_length, size_tsize, U, Ec by lia. reflexivity.
Qed.
Print Assumptions C13_subEntities_increasing.

Example C13_example :
  let get i c cc := obind (re_infos 3 3) (fun r => re_subEntities r i c cc) in
  get 3 1 2 = Some [2; 4; 5] /\ get 3 1 3 = Some [0; 1; 4].
Proof. vm_compute. repeat split. Qed.

(** ** C14 transitivity *)

Theorem C14_subEntity_transitive :
  forall id dim r i c t rs,
    (id < 2 ^ N.of_nat dim)%N -> dim < 256 -> re_infos id dim = Some r ->
    c <= dim -> i < re_size r c ->
    re_type r i c = Some t -> re_infos (gt_id t) (dim - c) = Some rs ->
    forall cc j, c <= cc <= dim -> j < re_size rs (cc - c) ->
    exists k, re_subEntity r i c j cc = Some k /\ k < re_size r cc
      /\ (exists t', re_type r k cc = Some t' /\ re_type rs j (cc - c) = Some t')
      /\ forall ccc jj, cc <= ccc <= dim ->
           forall n, re_size3 rs j (cc - c) (ccc - c) = Some n -> jj < n ->
           exists k', re_subEntity rs j (cc - c) jj (ccc - c) = Some k'
                      /\ re_subEntity r k cc jj ccc = re_subEntity r i c k' ccc
                      /\ re_subEntity r k cc jj ccc <> None.
Proof. intros until rs. rewrite <- bit_pow. apply re_transitive. Qed.
Print Assumptions C14_subEntity_transitive.

(** the sub reference element needed above always exists *)
Theorem C14_sub_reference_element_exists :
  forall id dim r i c t, (id < 2 ^ N.of_nat dim)%N -> dim < 256 -> re_infos id dim = Some r ->
    c <= dim -> i < re_size r c -> re_type r i c = Some t ->
    exists rs, re_infos (gt_id t) (dim - c) = Some rs.
Proof.
  intros id dim r i c t Hid Hd Hr Hc Hi Ht.
  destruct (C12_subentity_type_valid id dim r i c Hid Hd Hr Hc Hi) as (t' & E & _ & _ & L).
  rewrite Ht in E. injection E as <-.
  destruct (C10_reference_element_size _ _ L) as (rs & E & _). eauto.
Qed.
Print Assumptions C14_sub_reference_element_exists.

(** The numbering is the documented one: the subentities are the faces of the abstract
    polytope in the order of [S_Topo.faces], and sub-subentities are embedded faces. *)
Theorem C14_face_lattice_refinement :
  forall id dim r, (id < 2 ^ N.of_nat dim)%N -> re_infos id dim = Some r ->
    let T := topo_of id dim in
    forall c, c <= dim ->
      re_size r c = length (faces T c)
      /\ forall i f, nth_error (faces T c) i = Some f ->
           (exists t, re_type r i c = Some t /\ topo_of (gt_id t) (dim - c) = ftype T f)
           /\ forall cc j g, c <= cc <= dim -> nth_error (faces (ftype T f) (cc - c)) j = Some g ->
                exists k, re_subEntity r i c j cc = Some k /\ nth_error (faces T cc) k = Some (emb f g).
Proof.
  intros id dim r Hid Hr T c Hc. rewrite <- bit_pow in Hid.
  destruct (re_infos_spec id dim Hid) as (r' & E & OK). rewrite Hr in E. injection E as <-.
  assert (SZ : re_size r c = length (faces T c)) by (rewrite (ok_re_size _ _ _ OK) by assumption; reflexivity).
  split; [exact SZ|]. intros i f Hf.
  assert (Hi : i < re_size r c) by (rewrite SZ; apply nth_error_Some; congruence).
  destruct (re_face id dim r i c OK Hc Hi) as (f' & F1 & F2 & F3 & s & Es & I). fold T in F1, F2, F3.
  pose proof (fidx_nth T f' F1) as N. rewrite F2, F3, Hf in N. injection N as <-.
  split.
  - exists (type_ s). unfold re_type. rewrite Es. cbn [obind]. split; [reflexivity|].
    rewrite (ok_type _ _ _ _ I). fold T. rewrite F2, F3. cbn [GT2 gt_id].
    pose proof (subTopologyId_spec dim id f Hid F1) as Q. cbv zeta in Q. fold T in Q. rewrite F2, F3 in Q. apply Q.
  - intros cc j g Hcc Hg.
    pose proof Hg as Hin. apply nth_error_In in Hin. apply in_faces in Hin. destruct Hin as [G1 G2].
    assert (Hj : j < tsize (ftype T f) (cc - fcod T f)) by (rewrite F2; apply nth_error_Some; congruence).
    exists (fidx T (emb f g)).
    destruct (emb_face T f g F1 G1) as (M1 & M2 & M3).
    split.
    + rewrite <- F3, <- F2.
      rewrite (re_subEntity_want id dim T r f j cc OK eq_refl F1); [|lia|rewrite want_length by lia; exact Hj].
      destruct (want_nth T f cc j F1) as (g' & K1 & K2 & K3 & K4); [lia|exact Hj|].
      rewrite K4. do 3 f_equal. pose proof (fidx_nth _ g' K1) as N.
      rewrite K2, K3, F2, Hg in N. congruence.
    + replace cc with (fcod T (emb f g)) by lia. now apply fidx_nth.
Qed.
Print Assumptions C14_face_lattice_refinement.

(* edge 2 of face 4 of the hexahedron is edge 6; its second vertex seen both ways *)
Example C14_example :
  let r i c j cc := obind (re_infos 7 3) (fun r => re_subEntity r i c j cc) in
  let rs i c j cc := obind (re_infos 3 2) (fun r => re_subEntity r i c j cc) in
  obind (re_infos 7 3) (fun r => re_type r 4 1) = Some (GT2 3 2)
  /\ r 4 1 2 2 = Some 6 /\ rs 2 1 1 2 = Some 1 /\ r 6 2 1 3 = Some 1 /\ r 4 1 1 3 = Some 1.
Proof. vm_compute. repeat split. Qed.

(** ** C15 contains *)

Theorem C15_contains_iff_in_range :
  forall id dim r i c cc k, (id < 2 ^ N.of_nat dim)%N -> re_infos id dim = Some r ->
    c <= dim -> i < re_size r c -> cc <= dim -> k < re_size r cc ->
    exists l b, re_subEntities r i c cc = Some l /\ re_contains r i c cc k = Some b
      /\ (b = true <-> In k l)
      /\ (cc < c -> l = [] /\ b = false).
Proof.
  intros id dim r i c cc k Hid Hr Hc Hi Hcc Hk. rewrite <- bit_pow in Hid.
  destruct (re_infos_spec id dim Hid) as (r' & E & OK). rewrite Hr in E. injection E as <-.
  destruct (re_face id dim r i c OK Hc Hi) as (f & Hf & Ec & Ei & s & Es & I).
  exists (want (topo_of id dim) f cc), (existsb (Nat.eqb k) (want (topo_of id dim) f cc)).
  unfold re_subEntities, re_contains. rewrite Es. cbn [obind].
  split; [now apply (ok_numbers _ _ _ _ I)|]. split.
  - apply (ok_contains _ _ _ _ I); auto. rewrite (ok_re_size _ _ _ OK) in Hk by assumption.
    pose proof (tsize_le_max (topo_of id dim) cc) as Q. rewrite tdim_topo_of in Q. specialize (Q Hcc). lia.
  - split; [apply existsb_eqb_iff|]. intros L. unfold want.
    destruct (Nat.leb_spec (fcod (topo_of id dim) f) cc); [lia|]. auto.
Qed.
Print Assumptions C15_contains_iff_in_range.

Example C15_example :
  let get i c cc k := obind (re_infos 3 3) (fun r => re_contains r i c cc k) in
  get 3 1 2 5 = Some true /\ get 3 1 2 6 = Some false /\ get 5 2 1 0 = Some false.
Proof. vm_compute. repeat split. Qed.

(** ** C56 subentities are determined by their vertices *)

Theorem C56_contained_iff_vertices_contained :
  forall id dim r i c k cc,
    (id < 2 ^ N.of_nat dim)%N -> re_infos id dim = Some r ->
    c <= dim -> i < re_size r c -> cc <= dim -> k < re_size r cc ->
    exists E vE vK,
      re_subEntities r i c cc = Some E /\ re_subEntities r i c dim = Some vE
      /\ re_subEntities r k cc dim = Some vK
      /\ (In k E <-> (forall v, In v vK -> In v vE)).
Proof. intros until cc. rewrite <- bit_pow. apply re_contained_iff_vertices. Qed.
Print Assumptions C56_contained_iff_vertices_contained.

Theorem C56_vertices_determine_subentity :
  forall id dim r i k c,
    (id < 2 ^ N.of_nat dim)%N -> re_infos id dim = Some r ->
    c <= dim -> i < re_size r c -> k < re_size r c ->
    re_subEntities r i c dim = re_subEntities r k c dim -> i = k.
Proof. intros until c. rewrite <- bit_pow. apply re_vertices_injective. Qed.
Print Assumptions C56_vertices_determine_subentity.

Example C56_example :
  let get i c cc := obind (re_infos 3 3) (fun r => re_subEntities r i c cc) in
  get 5 2 3 = Some [1; 4] /\ get 3 1 3 = Some [0; 1; 4] /\ get 3 1 2 = Some [2; 4; 5].
Proof. vm_compute. repeat split. Qed.
