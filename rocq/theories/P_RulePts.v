(** Where the points of the quadrature rules lie: away from the apices over which the
    multilinear maps are not differentiable. *)
From Coq Require Import NArith ZArith QArith PeanoNat Reals List Qreals Lia Lra Bool.
From Coquelicot Require Import Coquelicot.
From Verif Require Import M_Type M_TypeIndex M_RefGeo M_QuadFactory M_Tab M_TabGauss M_TabLobatto M_TabRadauLeft
  M_TabRadauRight M_TabJacobi1 M_TabJacobi2 M_TabSimplex M_Quadrature S_Topo S_Quad S_Quad1D S_QuadND S_MultiLinear
  P_Type P_Type2 P_Topo P_RefGeo P_RefGeo2 P_RefVol P_QuadFactory P_QuadFix P_QuadProd P_QuadFixN P_TabSimplex P_QuadRules P_QuadAll P_RefGeo4 P_Trace.
Import ListNotations.
Local Open Scope R_scope.

(** below the top of every prism and every pyramid of the construction, by more than [tol] *)
Fixpoint below (tol : R) (T : Topo) (x : Vec) : Prop :=
  match T with
  | Pt => True
  | Pri b => x (tdim b) < 1 - tol /\ below tol b x
  | Pyr b => x (tdim b) < 1 - tol /\ below tol b (fun k => x k / (1 - x (tdim b)))
  end.

Lemma below_ext tol T : forall x y, (forall k, (k < tdim T)%nat -> x k = y k) -> below tol T x -> below tol T y.
Proof.
  induction T as [|b IH|b IH]; intros x y E H; cbn [below tdim] in *; [exact I| |]; rewrite <- (E (tdim b)) by lia; destruct H as [H1 H2]; (split; [exact H1|]).
  - apply (IH x); auto.
  - apply (IH (fun k => x k / (1 - x (tdim b)))); [|exact H2]. intros k Hk. now rewrite <- E by lia.
Qed.
Lemma below_smooth tol T : 0 <= tol -> forall x, below tol T x -> smooth tol T x.
Proof.
  intro Ht. induction T as [|b IH|b IH]; intros x H; cbn [below smooth] in *; [exact I| |]; destruct H as [H1 H2].
  - auto.
  - right. split; [rewrite Rabs_right; lra|]. now apply IH.
Qed.

Lemma smooth_tol tol tol' T : tol <= tol' -> forall x, smooth tol' T x -> smooth tol T x.
Proof. intro Ht. induction T as [|b IH|b IH]; intros x H; cbn [smooth] in *; auto. destruct H as [H|[H1 H2]]; [auto|right]. split; [lra|auto]. Qed.
Lemma smooth_weak tol T : 0 <= tol -> forall x, smooth tol T x -> smooth 0 T x.
Proof. intro Ht. induction T as [|b IH|b IH]; intros x H; cbn [smooth] in *; auto. destruct H as [H|[H1 H2]]; [auto|right]. split; [lra|auto]. Qed.
Lemma low_below tol id id' : N.shiftr id 1 = N.shiftr id' 1 -> forall dim x,
  (below tol (topo_of id dim) x <-> below tol (topo_of id' dim) x) /\ (smooth tol (topo_of id dim) x <-> smooth tol (topo_of id' dim) x).
Proof.
  intros H. induction dim as [|[|d] IH]; intro x; [split; reflexivity| |].
  - cbn [topo_of]. destruct (N.testbit id _), (N.testbit id' _); cbn [below smooth tdim]; tauto.
  - change (topo_of id (S (S d))) with (if N.testbit id (N.of_nat (S d)) then Pri (topo_of id (S d)) else Pyr (topo_of id (S d))).
    change (topo_of id' (S (S d))) with (if N.testbit id' (N.of_nat (S d)) then Pri (topo_of id' (S d)) else Pyr (topo_of id' (S d))).
    rewrite (same_shift_bits id id' H (N.of_nat (S d))) by lia.
    assert (Z : forall a, topo_of a (S d) <> Pt) by (intros a E; apply (f_equal tdim) in E; rewrite tdim_topo_of in E; discriminate).
    destruct (N.testbit id' (N.of_nat (S d))); cbn [below smooth]; rewrite !tdim_topo_of, ?(proj1 (IH _)), ?(proj2 (IH _)); [tauto|].
    pose proof (Z id). pose proof (Z id'). tauto.
Qed.

(** ** products *)
Lemma below_tensor tol b base oned :
  (forall q, In q base -> below tol b (fst q)) -> (forall q, In q oned -> fst q 0%nat < 1 - tol) ->
  forall q, In q (tensorProduct (tdim b) base oned) -> below tol (Pri b) (fst q).
Proof.
  intros HB HO q I. unfold tensorProduct in I. apply in_flat_map in I. destruct I as (qb & Ib & I). apply in_map_iff in I. destruct I as (qo & <- & Io).
  cbn [fst below]. rewrite Nat.eqb_refl. split; [now apply HO|]. apply (below_ext tol b (fst qb)); [|now apply HB].
  intros k Hk. destruct (Nat.eqb_spec k (tdim b)); [lia|reflexivity].
Qed.
Lemma below_conical tol b respect base oned : 0 <= tol ->
  (forall q, In q base -> below tol b (fst q)) -> (forall q, In q oned -> fst q 0%nat < 1 - tol) ->
  forall q, In q (conicalProduct (tdim b) respect base oned) -> below tol (Pyr b) (fst q).
Proof.
  intros Ht HB HO q I. unfold conicalProduct in I. apply in_flat_map in I. destruct I as (qb & Ib & I). apply in_map_iff in I. destruct I as (qo & <- & Io).
  specialize (HO qo Io). cbn [fst below]. rewrite Nat.eqb_refl. split; [exact HO|]. apply (below_ext tol b (fst qb)); [|now apply HB].
  intros k Hk. destruct (Nat.eqb_spec k (tdim b)); [lia|]. field. lra.
Qed.
Lemma smooth_tensor b base oned :
  (forall q, In q base -> snd q <> 0 -> smooth 0 b (fst q)) ->
  forall q, In q (tensorProduct (tdim b) base oned) -> snd q <> 0 -> smooth 0 (Pri b) (fst q).
Proof.
  intros HB q I Hw. unfold tensorProduct in I. apply in_flat_map in I. destruct I as (qb & Ib & I). apply in_map_iff in I. destruct I as (qo & <- & Io).
  cbn [fst snd smooth] in *. apply (smooth_ext 0 b (fst qb)); [|apply HB; [exact Ib|]].
  - intros k Hk. destruct (Nat.eqb_spec k (tdim b)); [lia|reflexivity].
  - intro E. apply Hw. unfold Vec in *. rewrite E. ring.
Qed.
Lemma smooth_tensor_all tol b base oned : (forall q, In q base -> smooth tol b (fst q)) ->
  forall q, In q (tensorProduct (tdim b) base oned) -> smooth tol (Pri b) (fst q).
Proof.
  intros HB q I. unfold tensorProduct in I. apply in_flat_map in I. destruct I as (qb & Ib & I). apply in_map_iff in I. destruct I as (qo & <- & Io).
  cbn [fst smooth] in *. apply (smooth_ext tol b (fst qb)); [|now apply HB]. intros k Hk. destruct (Nat.eqb_spec k (tdim b)); [lia|reflexivity].
Qed.
Lemma smooth_conical_all tol b respect base oned : 0 <= tol -> (forall q, In q base -> smooth tol b (fst q)) -> (forall q, In q oned -> fst q 0%nat < 1 - tol) ->
  forall q, In q (conicalProduct (tdim b) respect base oned) -> smooth tol (Pyr b) (fst q).
Proof.
  intros Ht HB HO q I. unfold conicalProduct in I. apply in_flat_map in I. destruct I as (qb & Ib & I). apply in_map_iff in I. destruct I as (qo & <- & Io).
  specialize (HO qo Io). cbn [fst smooth]. right. rewrite Nat.eqb_refl. split; [rewrite Rabs_right; lra|]. apply (smooth_ext tol b (fst qb)); [|now apply HB].
  intros k Hk. destruct (Nat.eqb_spec k (tdim b)); [lia|]. field. lra.
Qed.
Lemma iter_scale d w s : Nat.iter d (fun w => w * s) w = w * s ^ d.
Proof. induction d as [|d IH]; cbn [Nat.iter nat_rect pow]; [ring|]. unfold Nat.iter in *. rewrite IH. ring. Qed.
Lemma smooth_conical b base oned : (0 < tdim b)%nat ->
  (forall q, In q base -> snd q <> 0 -> smooth 0 b (fst q)) ->
  forall q, In q (conicalProduct (tdim b) false base oned) -> snd q <> 0 -> smooth 0 (Pyr b) (fst q).
Proof.
  intros Hd HB q I Hw. unfold conicalProduct in I. apply in_flat_map in I. destruct I as (qb & Ib & I). apply in_map_iff in I. destruct I as (qo & <- & Io).
  cbn [fst snd smooth] in *. rewrite iter_scale in Hw. right. rewrite Nat.eqb_refl.
  assert (L : 1 - fst qo 0%nat <> 0) by (intro E; apply Hw; rewrite E, pow_ne_zero by lia; ring).
  split; [now apply Rabs_pos_lt|]. apply (smooth_ext 0 b (fst qb)); [|apply HB; [exact Ib|]].
  - intros k Hk. destruct (Nat.eqb_spec k (tdim b)); [lia|]. field. exact L.
  - intro E. apply Hw. unfold Vec in *. rewrite E. ring.
Qed.

(** ** the tables: no closer to 1 than 1/1024 *)
Definition lt1 (x : Q) : bool := Z.ltb (1024 * Qnum x) (1023 * Zpos (Qden x)).
Lemma lt1_R x : lt1 x = true -> Q2R x < 1023 / 1024.
Proof.
  intro H. apply Z.ltb_lt in H. unfold Q2R. apply IZR_lt in H. rewrite !mult_IZR in H.
  assert (0 < IZR (Zpos (Qden x))) by now apply IZR_lt.
  apply (Rmult_lt_reg_r (1024 * IZR (Zpos (Qden x)))); [lra|]. field_simplify; lra.
Qed.
Definition tab_lt1 (tab : list Entry) : bool := forallb (fun e => forallb (fun xw => lt1 (fst xw)) (en_data e)) tab.
Lemma switchOn_In tab p e : switchOn tab p = Some e -> In e tab.
Proof.
  induction tab as [|a tab IH]; cbn [switchOn]; [discriminate|]. destruct (existsb _ _); [intro H; injection H as <-; now left|intro H; right; auto].
Qed.
Lemma table_lt1 tab p r : tab_lt1 tab = true -> tableRule tab p = Some r -> forall q, In q (ru_points r) -> fst q 0%nat < 1023 / 1024.
Proof.
  unfold tableRule. intros H E q I. destruct (switchOn tab p) as [e|] eqn:S1; [|discriminate]. injection E as <-. cbn [ru_points] in I.
  apply in_map_iff in I. destruct I as (xw & <- & I). cbn [fst vec1]. apply lt1_R.
  unfold tab_lt1 in H. rewrite forallb_forall in H. specialize (H e (switchOn_In _ _ _ S1)). rewrite forallb_forall in H. now apply H.
Qed.
Lemma gauss_lt1 : tab_lt1 gaussTable = true. Proof. vm_compute. reflexivity. Qed.
Lemma jacobi1_lt1 : tab_lt1 jacobi1Table = true. Proof. vm_compute. reflexivity. Qed.
Lemma jacobi2_lt1 : tab_lt1 jacobi2Table = true. Proof. vm_compute. reflexivity. Qed.
Lemma radauLeft_lt1 : tab_lt1 radauLeftTable = true. Proof. vm_compute. reflexivity. Qed.
(** the simplex tables: the sums of the coordinates stay below 1 *)
Definition sum_lt1 (dim : nat) (s : Store) (m : nat) : bool :=
  forallb (fun i => let g := st_G s m i in
    forallb (fun k => Qle_bool 0 (g k)) (seq 0 dim) && lt1 (Qred (fold_right Qplus 0%Q (map g (seq 0 dim))))) (seq 0 m).
Lemma Qle0_R x : Qle_bool 0 x = true -> 0 <= Q2R x.
Proof. intro H. apply Qle_R in H. now rewrite RMicromega.Q2R_0 in H. Qed.
Lemma frac_lt a b : 0 <= b -> 0 <= a -> a + b < 1023 / 1024 -> a / (1 - b) < 1 - / 1024.
Proof. intros. apply (Rmult_lt_reg_r (1 - b)); [lra|]. replace (a / (1 - b) * (1 - b)) with a by (field; lra). nra. Qed.
Lemma triangle_below t s m : sum_lt1 2 s m = true -> forall q, In q (ru_points (storeRule t s m)) -> below (/ 1024) TriT (fst q).
Proof.
  intros H q I. cbn [ru_points storeRule] in I. apply in_map_iff in I. destruct I as (i & <- & I). cbn [fst].
  unfold sum_lt1 in H. rewrite forallb_forall in H. specialize (H i I). cbv zeta in H. rewrite andb_true_iff in H. destruct H as [H1 H2].
  rewrite forallb_forall in H1. pose proof (Qle0_R _ (H1 0%nat ltac:(cbn; auto))) as P0. pose proof (Qle0_R _ (H1 1%nat ltac:(cbn; auto))) as P1.
  apply lt1_R in H2. rewrite (Qeq_eqR _ _ (Qred_correct _)) in H2. cbn [seq map fold_right] in H2. rewrite !Q2R_plus, RMicromega.Q2R_0 in H2.
  cbn [below TriT tdim]. split; [lra|]. split; [|exact Logic.I]. apply frac_lt; lra.
Qed.
Lemma tetrahedron_below t s m : sum_lt1 3 s m = true -> forall q, In q (ru_points (storeRule t s m)) -> below (/ 1024) TetT (fst q).
Proof.
  intros H q I. cbn [ru_points storeRule] in I. apply in_map_iff in I. destruct I as (i & <- & I). cbn [fst].
  unfold sum_lt1 in H. rewrite forallb_forall in H. specialize (H i I). cbv zeta in H. rewrite andb_true_iff in H. destruct H as [H1 H2].
  rewrite forallb_forall in H1. pose proof (Qle0_R _ (H1 0%nat ltac:(cbn; auto))) as P0. pose proof (Qle0_R _ (H1 1%nat ltac:(cbn; auto))) as P1.
  pose proof (Qle0_R _ (H1 2%nat ltac:(cbn; auto))) as P2.
  apply lt1_R in H2. rewrite (Qeq_eqR _ _ (Qred_correct _)) in H2. cbn [seq map fold_right] in H2. rewrite !Q2R_plus, RMicromega.Q2R_0 in H2.
  set (a := Q2R (st_G s m i 0%nat)) in *. set (b := Q2R (st_G s m i 1%nat)) in *. set (c := Q2R (st_G s m i 2%nat)) in *.
  cbn [below TetT TriT tdim]. fold a b c. split; [lra|].
  assert (B1 : b / (1 - c) < 1 - / 1024) by (apply frac_lt; lra).
  split; [exact B1|]. split; [|exact Logic.I].
  replace (a / (1 - c) / (1 - b / (1 - c))) with (a / (1 - (b + c))) by (field; split; lra). apply frac_lt; lra.
Qed.
Definition prism_lt1 (s : Store) (m : nat) : bool := sum_lt1 2 s m && forallb (fun i => lt1 (st_G s m i 2%nat)) (seq 0 m).
Lemma prism_below t s m : prism_lt1 s m = true -> forall q, In q (ru_points (storeRule t s m)) -> below (/ 1024) PriT (fst q).
Proof.
  intros H q I. unfold prism_lt1 in H. rewrite andb_true_iff in H. destruct H as [H1 H2]. cbn [below PriT]. split.
  - cbn [ru_points storeRule] in I. apply in_map_iff in I. destruct I as (i & <- & I). cbn [fst TriT tdim]. rewrite forallb_forall in H2. specialize (H2 i I). apply lt1_R in H2. lra.
  - exact (triangle_below t s m H1 q I).
Qed.
(** the rule of order 11 has points close to the edge opposite the origin *)
Lemma triangle_lt1 : forallb (fun p => Z.eqb p 11 || sum_lt1 2 (run triangleInit) (triangleM p)) (orders 13) = true. Proof. vm_compute. reflexivity. Qed.
Lemma triangle_top : forallb (fun p => forallb (fun i => lt1 (st_G (run triangleInit) (triangleM p) i 1%nat)) (seq 0 (triangleM p))) (orders 13) = true. Proof. vm_compute. reflexivity. Qed.
Lemma triangle_smooth t s m : forallb (fun i => lt1 (st_G s m i 1%nat)) (seq 0 m) = true -> forall q, In q (ru_points (storeRule t s m)) -> smooth (/ 1024) TriT (fst q).
Proof.
  intros H q I. cbn [ru_points storeRule] in I. apply in_map_iff in I. destruct I as (i & <- & I). cbn [fst].
  rewrite forallb_forall in H. specialize (H i I). apply lt1_R in H. cbn [smooth TriT tdim]. right. split; [|now left]. rewrite Rabs_right; lra.
Qed.
(** the rule of order 3 has the vertices among its points *)
Lemma tetrahedron_lt1 : forallb (fun p => Z.eqb p 3 || sum_lt1 3 (run tetrahedronInit) (tetrahedronM p)) (orders 6) = true. Proof. vm_compute. reflexivity. Qed.
Lemma prismInit_lt1 : prism_lt1 (run prismInit) 6 = true. Proof. vm_compute. reflexivity. Qed.

(** ** all rules *)
Section Factory.
Variable lapack : Z -> nat -> option (list (R * R)).
Variable tol : R.
Hypothesis Ht : 0 <= tol <= / 1024.
Hypothesis Hl : forall p alpha data x w, lapack p alpha = Some data -> In (x, w) data -> x < 1 - tol.

(** the types whose one dimensional rules stop short of 1: not Lobatto, not the right Radau *)
Definition openTop (qt : nat) : Prop := (qt <> 4 /\ qt <> 6)%nat.
Lemma tab_tol x : x < 1023 / 1024 -> x < 1 - tol.
Proof. intro. lra. Qed.
Lemma below_tol T : forall x, below (/ 1024) T x -> below tol T x.
Proof. induction T as [|b IH|b IH]; intros x H; cbn [below] in *; auto; (split; [lra|apply IH, H]). Qed.
Lemma jacobiN_below p alpha r : jacobiN lapack p alpha = Some r -> forall q, In q (ru_points r) -> fst q 0%nat < 1 - tol.
Proof.
  unfold jacobiN. destruct (_ || _); [discriminate|]. destruct (decideRule lapack p alpha) as [pts|] eqn:E; [|discriminate].
  intro H. injection H as <-. cbn [ru_points]. intros q I. unfold decideRule in E. destruct (jacobiTable p alpha) as [[|[|n]]|].
  - destruct (tableRule gaussTable p) as [r|] eqn:T; [|discriminate]. injection E as <-. eapply tab_tol; exact (table_lt1 _ _ _ gauss_lt1 T q I).
  - destruct (tableRule jacobi1Table p) as [r|] eqn:T; [|discriminate]. injection E as <-. apply in_map_iff in I. destruct I as (q' & <- & I). eapply tab_tol; exact (table_lt1 _ _ _ jacobi1_lt1 T q' I).
  - destruct (tableRule jacobi2Table p) as [r|] eqn:T; [|discriminate]. injection E as <-. apply in_map_iff in I. destruct I as (q' & <- & I). eapply tab_tol; exact (table_lt1 _ _ _ jacobi2_lt1 T q' I).
  - destruct (lapack p alpha) as [data|] eqn:L; [|discriminate]. injection E as <-. apply in_map_iff in I. destruct I as ([x w] & <- & I). cbn [fst vec1]. exact (Hl _ _ _ _ _ L I).
Qed.
Lemma rule1D_below p qt r : openTop qt -> rule1D lapack p qt = Some r -> forall q, In q (ru_points r) -> fst q 0%nat < 1 - tol.
Proof.
  intros [O1 O2]. destruct qt as [|[|[|[|[|[|[|qt]]]]]]]; cbn [rule1D]; intros H; try (now elim O1); try (now elim O2); try discriminate.
  - intros q I. exact (tab_tol _ (table_lt1 _ _ _ gauss_lt1 H q I)).
  - intros q I. exact (tab_tol _ (table_lt1 _ _ _ jacobi1_lt1 H q I)).
  - intros q I. exact (tab_tol _ (table_lt1 _ _ _ jacobi2_lt1 H q I)).
  - exact (jacobiN_below _ _ _ H).
  - intros q I. exact (tab_tol _ (table_lt1 _ _ _ radauLeft_lt1 H q I)).
Qed.
Lemma fetch_below p qt r : openTop qt -> fetch1D lapack p qt = Some r -> forall q, In q (ru_points r) -> fst q 0%nat < 1 - tol.
Proof. intro O. unfold fetch1D. destruct (inRange _ _ _ _); [|discriminate]. now apply rule1D_below. Qed.

Definition no11 (p : Z) (dim qt : nat) : Prop := p <> 11%Z \/ (qt <> 0 /\ qt <> 3)%nat \/ (dim < 2)%nat.
Definition placed (id : N) (dim : nat) (p : Z) (qt : nat) (r : Rule) : Prop :=
  (openTop qt -> no11 p dim qt -> forall q, In q (ru_points r) -> below tol (topo_of id dim) (fst q))
  /\ (openTop qt -> forall q, In q (ru_points r) -> smooth tol (topo_of id dim) (fst q))
  /\ (forall q, In q (ru_points r) -> snd q <> 0 -> smooth 0 (topo_of id dim) (fst q)).
Lemma placed_low id id' dim p qt r : N.shiftr id 1 = N.shiftr id' 1 -> placed id dim p qt r -> placed id' dim p qt r.
Proof.
  intros H (A & C & B). split; [intros O P q I|split; [intros O q I|intros q I W]].
  - apply (low_below tol id id' H). now apply A.
  - apply (low_below tol id id' H). now apply C.
  - apply (low_below 0 id id' H). now apply B.
Qed.
Lemma placed_below id dim p qt r : (forall q, In q (ru_points r) -> below tol (topo_of id dim) (fst q)) -> placed id dim p qt r.
Proof. intro H. split; [intros _ _; exact H|]. split; [intros _ q I; apply below_smooth; [apply Ht|auto]|]. intros q I _. apply (smooth_weak tol); [apply Ht|]. apply below_smooth; [apply Ht|auto]. Qed.

Lemma tensorPart_placed d t p qt r :
  (forall t' r', factory lapack (S d) t' p qt = Some r' -> placed (gt_id t') (S d) p qt r') ->
  tensorPart lapack d t p qt = Some r -> placed (gt_id t) (S (S d)) p qt r.
Proof.
  intros IH H. unfold tensorPart in H.
  destruct (inRange (S d) (tpBase (gt_id t) (S d)) p qt); [|discriminate].
  destruct (factory lapack (S d) (tpBase (gt_id t) (S d)) p qt) as [b|] eqn:F; [|discriminate].
  apply IH in F. destruct F as (F1 & F3 & F2). rewrite topo_base in F1, F2, F3.
  assert (NL : no11 p (S (S d)) qt -> no11 p (S d) qt) by (unfold no11; lia). unfold placed. rewrite topo_S.
  assert (D : tdim (topo_of (gt_id t) (S d)) = S d) by apply tdim_topo_of.
  unfold tpPrism in H. destruct (N.testbit (gt_id t) (N.of_nat (S d))).
  - destruct (fetch1D lapack p qt) as [o|] eqn:O; [|discriminate]. injection H as <-. cbn [ru_points]. set (B := topo_of (gt_id t) (S d)) in *. rewrite <- D. split; [|split].
    + intros OT NO. rewrite D in NO. apply below_tensor; [apply F1; auto|now apply (fetch_below p qt)].
    + intro OT. apply smooth_tensor_all. auto.
    + now apply smooth_tensor.
  - destruct (Nat.eqb_spec qt qtJacobiN) as [->|N].
    + destruct (jacobiN lapack p (S d)) as [o|] eqn:O; [|discriminate]. injection H as <-. cbn [ru_points]. set (B := topo_of (gt_id t) (S d)) in *. rewrite <- D.
      assert (OT : openTop qtJacobiN) by (split; discriminate).
      assert (SS : forall q, In q (conicalProduct (tdim B) true (ru_points b) (ru_points o)) -> smooth tol (Pyr B) (fst q))
        by (apply smooth_conical_all; [apply Ht|now apply F3|exact (jacobiN_below _ _ _ O)]).
      split; [intros _ NO; rewrite D in NO; apply below_conical; [apply Ht|apply F1; auto|exact (jacobiN_below _ _ _ O)]|].
      split; [intros _; exact SS|]. intros q I _. apply (smooth_weak tol); [apply Ht|]. now apply SS.
    + destruct (fetch1D lapack (p + Z.of_nat (S d)) qt) as [o|] eqn:O; [|discriminate]. injection H as <-. cbn [ru_points]. set (B := topo_of (gt_id t) (S d)) in *. rewrite <- D. split; [|split].
      * intros OT NO. rewrite D in NO. apply below_conical; [apply Ht|apply F1; auto|now apply (fetch_below (p + Z.of_nat (S d)) qt)].
      * intro OT. apply smooth_conical_all; [apply Ht|now apply F3|now apply (fetch_below (p + Z.of_nat (S d)) qt)].
      * apply smooth_conical; [rewrite D; lia|exact F2].
Qed.
Lemma factory_placed dim : forall t p qt r, (0 <= p)%Z -> (p <> 3%Z \/ (qt <> 0 /\ qt <> 3)%nat \/ (dim < 3)%nat) -> factory lapack dim t p qt = Some r -> placed (gt_id t) dim p qt r.
Proof.
  induction dim as [|[|d] IH]; intros t p qt r Hp H3 H.
  - apply placed_below. intros q _. exact Logic.I.
  - cbn [factory choose] in H. destruct (isLine t); [|discriminate]. destruct (Nat.ltb qt qtSize); [|discriminate]. split.
    + intros O _ q I. pose proof (rule1D_below p qt r O H q I). cbn [topo_of]. destruct (N.testbit _ _); cbn [below tdim]; auto.
    + split; [intros _ q I|intros q I _]; cbn [topo_of]; destruct (N.testbit _ _); cbn [smooth]; auto.
  - assert (IH' : forall t' r', factory lapack (S d) t' p qt = Some r' -> placed (gt_id t') (S d) p qt r') by (intros t' r'; apply IH; [exact Hp|destruct H3 as [H3|[H3|H3]]; auto; right; right; lia]).
    rewrite factory_SS, choose_SS in H.
    destruct d as [|[|d]].
    + destruct (isSimplex t && _ && _) eqn:C.
      * rewrite !andb_true_iff, Z.leb_le in C. destruct C as ((C1 & C2) & C3). unfold highestTriangle in C3.
        cbn [simplexRule] in H. unfold highestTriangle in H. replace (12 <? p)%Z with false in H by (symmetry; apply Z.ltb_ge; lia).
        injection H as <-. apply (placed_low 0); [now apply simplex_id|].
        assert (IO : In p (orders 13)) by (apply in_orders; lia).
        pose proof triangle_lt1 as L. rewrite forallb_forall in L. specialize (L p IO). apply orb_true_iff in L.
        pose proof triangle_top as L'. rewrite forallb_forall in L'. specialize (L' p IO).
        assert (SS : forall q, In q (ru_points (storeRule (GT2 0 2) (run triangleInit) (triangleM p))) -> smooth tol TriT (fst q)).
        { intros q I. apply (smooth_tol tol (/ 1024)); [lra|]. exact (triangle_smooth _ _ _ L' q I). }
        split; [|split; [intros _; exact SS|intros q I _; apply (smooth_weak tol); [apply Ht|now apply SS]]].
        intros _ NO. destruct L as [L|L]; [apply Z.eqb_eq in L; apply table_qt in C2; exfalso; unfold no11 in NO; lia|].
        intros q I. apply below_tol. exact (triangle_below _ _ _ L q I).
      * now apply (tensorPart_placed _ _ p).
    + destruct (isSimplex t && _ && _) eqn:C.
      * rewrite !andb_true_iff, Z.leb_le in C. destruct C as ((C1 & C2) & C3). unfold highestTetrahedron in C3.
        cbn [simplexRule] in H. unfold highestTetrahedron in H. replace (5 <? p)%Z with false in H by (symmetry; apply Z.ltb_ge; lia).
        injection H as <-. apply (placed_low 0); [now apply simplex_id|]. apply placed_below.
        pose proof tetrahedron_lt1 as L. rewrite forallb_forall in L. specialize (L p (in_orders p 6 ltac:(lia))). apply orb_true_iff in L.
        destruct L as [L|L]; [|intros q I; apply below_tol; exact (tetrahedron_below _ _ _ L q I)]. apply Z.eqb_eq in L. apply table_qt in C2. exfalso. lia.
      * destruct (isPrismT t && _ && _) eqn:C'; [|now apply (tensorPart_placed _ _ p)].
        rewrite !andb_true_iff, Z.leb_le, Nat.eqb_eq in C'. destruct C' as ((C1 & ->) & C3).
        injection H as <-. apply (placed_low 4); [now apply prism_id|]. apply placed_below. intros q I. apply below_tol. exact (prism_below _ _ _ prismInit_lt1 q I).
    + now apply (tensorPart_placed _ _ p).
Qed.
End Factory.

(** ** facets: points below the top of the facet are not at the apices of the element *)
Lemma below_facet tol T : 0 <= tol < 1 -> forall f y, is_face T f -> fcod T f = 1%nat -> below tol (ftype T f) y -> smooth tol T (Emb T f y).
Proof.
  intros Ht. induction T as [|b IH|b IH]; intros f y Hf Hc H; destruct f; cbn [is_face] in Hf; try contradiction; cbn [ftype fcod] in *; try (cbn in Hc; discriminate).
  - cbn [smooth]. apply (smooth_ext tol b (Emb b f y)); [intros k Hk; rewrite Emb_Side; now rewrite (proj2 (Nat.eqb_neq _ _)) by lia|]. apply IH; auto. apply H.
  - assert (f = whole b) as -> by (apply fcod_0_whole; auto; lia). rewrite (proj2 (proj2 (whole_face b))) in H. cbn [smooth]. rewrite Emb_Bot.
    apply (smooth_ext tol b y); [intros k Hk; symmetry; now apply Emb_whole|apply below_smooth; [apply Ht|exact H]].
  - assert (f = whole b) as -> by (apply fcod_0_whole; auto; lia). rewrite (proj2 (proj2 (whole_face b))) in H. cbn [smooth].
    apply (smooth_ext tol b y); [|apply below_smooth; [apply Ht|exact H]]. intros k Hk. rewrite Emb_Top, (proj2 (Nat.eqb_neq _ _)) by lia. symmetry. now apply Emb_whole.
  - assert (f = whole b) as -> by (apply fcod_0_whole; auto; lia). rewrite (proj2 (proj2 (whole_face b))) in H. cbn [smooth]. right.
    rewrite Emb_Base, Emb_support, Rminus_0_r, Rabs_R1 by lia. split; [lra|].
    apply (smooth_ext tol b y); [|apply below_smooth; [apply Ht|exact H]]. intros k Hk. rewrite Emb_whole by assumption. field.
  - destruct H as [H1 H2]. cbn [smooth]. right. rewrite Emb_Cone_last. split; [rewrite Rabs_right; lra|].
    apply (smooth_ext tol b (Emb b f (fun l => y l / (1 - y (tdim (ftype b f)))))); [|now apply IH].
    intros k Hk. rewrite Emb_Cone, (proj2 (Nat.eqb_neq _ _)) by (lra || lia). field. lra.
  - cbn [smooth]. left. destruct b; [reflexivity| |]; cbn in Hc; discriminate.
Qed.
