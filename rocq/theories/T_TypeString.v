(** C61: the text forms of geometry types and the parser of the Python interface. *)
From Coq Require Import NArith ZArith PeanoNat Bool List Ascii String Lia.
From Verif Require Import M_Type M_TypeIndex M_TypeString P_Type P_Type2 P_TypeString T_Type.
Import ListNotations.

Lemma u32_small n : (n < 2 ^ 32)%N -> u32 n = n.
Proof. intros H. unfold u32. now apply N.mod_small. Qed.
Lemma to_uchar_small d : d < 256 -> to_uchar d = d.
Proof. intros H. unfold to_uchar. now apply Nat.mod_small. Qed.
Lemma num_dim d : d < 256 -> num (dec (N.of_nat d)) = Ok (N.of_nat d) /\ u32 (N.of_nat d) = N.of_nat d.
Proof. intros H. split; [apply num_dec|apply u32_small]; change (2 ^ 64)%N with 18446744073709551616%N || change (2 ^ 32)%N with 4294967296%N; lia. Qed.

Lemma from_simplex d r : d < 256 -> fromString (lit "simplex(" ++ dec (N.of_nat d) ++ lit ")" ++ r) = Ok (simplex d).
Proof.
  intros H. destruct (dec_spec (N.of_nat d)) as (A & B & _).
  change (fromString (nth 8 constructorNames [] ++ lit "(" ++ dec (N.of_nat d) ++ lit ")" ++ r) = Ok (simplex d)).
  rewrite from_call1 by (trivial; lia). cbn [construct]. destruct (num_dim d H) as [-> U]. cbn [rbind]. now rewrite U, Nat2N.id.
Qed.
Lemma from_none d r : d < 256 -> fromString (lit "none(" ++ dec (N.of_nat d) ++ lit ")" ++ r) = Ok (none d).
Proof.
  intros H. destruct (dec_spec (N.of_nat d)) as (A & B & _).
  change (fromString (nth 4 constructorNames [] ++ lit "(" ++ dec (N.of_nat d) ++ lit ")" ++ r) = Ok (none d)).
  rewrite from_call1 by (trivial; lia). cbn [construct]. destruct (num_dim d H) as [-> U]. cbn [rbind]. now rewrite U, Nat2N.id.
Qed.
Lemma from_cube d r : d < 31 -> fromString (lit "cube(" ++ dec (N.of_nat d) ++ lit ")" ++ r) = Ok (cube d).
Proof.
  intros H. destruct (dec_spec (N.of_nat d)) as (A & B & _).
  change (fromString (nth 0 constructorNames [] ++ lit "(" ++ dec (N.of_nat d) ++ lit ")" ++ r) = Ok (cube d)).
  rewrite from_call1 by (trivial; lia). cbn [construct]. destruct (num_dim d ltac:(lia)) as [-> U]. cbn [rbind]. rewrite U. unfold cube_c.
  destruct (N.leb_spec 31 (N.of_nat d)); [lia|]. rewrite andb_false_r, Nat2N.id. reflexivity.
Qed.
Lemma from_general id d r : d < 31 -> (id < 2 ^ N.of_nat d)%N ->
  fromString (lit "general(" ++ dec id ++ lit ", " ++ dec (N.of_nat d) ++ lit ")" ++ r) = Ok (mkGT d false id).
Proof.
  intros H Hid. destruct (dec_spec (N.of_nat d)) as (A & B & _). destruct (dec_spec id) as (A' & B' & _).
  change (fromString (nth 1 constructorNames [] ++ lit "(" ++ dec id ++ lit ", " ++ dec (N.of_nat d) ++ lit ")" ++ r) = Ok (mkGT d false id)).
  rewrite from_call2 by (trivial; lia). cbn [construct].
  assert (I32 : (id < 2 ^ 32)%N) by (eapply N.lt_le_trans; [exact Hid|apply N.pow_le_mono_r; lia]).
  rewrite num_dec by (eapply N.lt_le_trans; [exact I32|apply N.pow_le_mono_r; lia]).
  destruct (num_dim d ltac:(lia)) as [-> U]. cbn [rbind]. rewrite U, (u32_small id I32), Nat2N.id.
  destruct (N.leb_spec 32 (N.of_nat d)); [lia|]. unfold numTopologies. rewrite bit_pow.
  destruct (N.leb_spec (2 ^ N.of_nat d) id); [lia|]. unfold GT2. now rewrite to_uchar_small by lia.
Qed.
Lemma from_plain i : i < 12 -> forall t, construct i [] = Ok t -> fromString (nth i constructorNames []) = Ok t.
Proof. intros H t E. now rewrite from_name. Qed.

Lemma small_id n (id : N) : (id < N.of_nat n)%N -> exists k, k < n /\ id = N.of_nat k.
Proof. intros H. exists (N.to_nat id). split; lia. Qed.

(** Reading the text of a type gives an equal type of the same dimension. *)
Theorem C61_round_trip : forall t, gt_dim t < 31 -> (gt_none t = false -> (gt_id t < 2 ^ N.of_nat (gt_dim t))%N) ->
  exists u, fromString (toString t) = Ok u /\ gt_eqb u t = true /\ gt_dim u = gt_dim t /\ gt_none u = gt_none t.
Proof.
  intros t Hd Hid. pose proof (C04_simplex_cube_characterised t ltac:(lia)) as [Cs Cc].
  destruct t as [d n id]. cbn [gt_dim gt_none gt_id] in *. unfold toString. cbn [gt_dim gt_none gt_id].
  destruct n.
  { exists (none d). split; [pose proof (from_none d [] ltac:(lia)) as E; rewrite app_nil_r in E; exact E|].
    split; [reflexivity|]. cbn [none GT3 gt_dim gt_none]. now rewrite to_uchar_small by lia. }
  specialize (Hid eq_refl).
  assert (Def : exists u, fromString (if isSimplex (mkGT d false id) then lit "simplex(" ++ dec (N.of_nat d) ++ lit ")"
      else if isCube (mkGT d false id) then lit "cube(" ++ dec (N.of_nat d) ++ lit ")"
      else lit "general(" ++ dec id ++ lit ", " ++ dec (N.of_nat d) ++ lit ")") = Ok u /\ gt_eqb u (mkGT d false id) = true /\ gt_dim u = d /\ gt_none u = false).
  { destruct (isSimplex (mkGT d false id)).
    - exists (simplex d). split; [pose proof (from_simplex d [] ltac:(lia)) as E; rewrite app_nil_r in E; exact E|].
      split; [apply gt_eqb_sym; now apply Cs|]. split; [now apply to_uchar_small; lia|reflexivity].
    - destruct (isCube (mkGT d false id)).
      + exists (cube d). split; [pose proof (from_cube d [] ltac:(lia)) as E; rewrite app_nil_r in E; exact E|].
        split; [apply gt_eqb_sym; now apply Cc|]. split; [now apply to_uchar_small; lia|reflexivity].
      + exists (mkGT d false id). split; [pose proof (from_general id d [] ltac:(lia) Hid) as E; rewrite app_nil_r in E; exact E|].
        split; [apply gt_eqb_refl|auto]. }
  destruct d as [|[|[|[|d]]]].
  - destruct (small_id 1 id ltac:(exact Hid)) as (k & Hk & ->). assert (k = 0) by lia. subst k.
    exists vertex. split; [exact (from_plain 11 ltac:(lia) vertex eq_refl)|]. repeat split.
  - destruct (small_id 2 id ltac:(exact Hid)) as (k & Hk & ->).
    exists line. split; [exact (from_plain 3 ltac:(lia) line eq_refl)|]. do 2 (destruct k as [|k]; [repeat split|]). lia.
  - destruct (small_id 4 id ltac:(exact Hid)) as (k & Hk & ->). clear Def Cs Cc Hid.
    do 2 (destruct k as [|k]; [exists triangle; split; [exact (from_plain 10 ltac:(lia) triangle eq_refl)|repeat split]|]).
    do 2 (destruct k as [|k]; [exists quadrilateral; split; [exact (from_plain 7 ltac:(lia) quadrilateral eq_refl)|repeat split]|]). lia.
  - destruct (small_id 8 id ltac:(exact Hid)) as (k & Hk & ->). clear Def Cs Cc Hid.
    do 2 (destruct k as [|k]; [exists tetrahedron; split; [exact (from_plain 9 ltac:(lia) tetrahedron eq_refl)|repeat split]|]).
    do 2 (destruct k as [|k]; [exists pyramid; split; [exact (from_plain 6 ltac:(lia) pyramid eq_refl)|repeat split]|]).
    do 2 (destruct k as [|k]; [exists prism; split; [exact (from_plain 5 ltac:(lia) prism eq_refl)|repeat split]|]).
    do 2 (destruct k as [|k]; [exists hexahedron; split; [exact (from_plain 2 ltac:(lia) hexahedron eq_refl)|repeat split]|]). lia.
  - exact Def.
Qed.
Print Assumptions C61_round_trip.

(** Different types have different texts. *)
Theorem C61_text_injective : forall s t, gt_dim s < 31 -> gt_dim t < 31 ->
  (gt_none s = false -> (gt_id s < 2 ^ N.of_nat (gt_dim s))%N) -> (gt_none t = false -> (gt_id t < 2 ^ N.of_nat (gt_dim t))%N) ->
  toString s = toString t -> gt_eqb s t = true /\ gt_dim s = gt_dim t.
Proof.
  intros s t Ds Dt Is It E. destruct (C61_round_trip s Ds Is) as (u & U1 & U2 & U3 & _).
  destruct (C61_round_trip t Dt It) as (v & V1 & V2 & V3 & _). rewrite E, V1 in U1. injection U1 as ->.
  split; [|congruence]. eapply gt_eqb_trans; [apply gt_eqb_sym; exact U2|exact V2].
Qed.
Print Assumptions C61_text_injective.

(** ** The parser on arbitrary strings *)
Lemma find_first_split p s k : find_first p s 0 = Some k -> exists c r, s = firstn k s ++ c :: r /\ p c = true.
Proof.
  intros H. apply find_first_some in H. destruct H as (H & c & E & P). exists c, (skipn (S k) s). split; [|exact P].
  rewrite <- (firstn_skipn k s) at 1. f_equal. clear -E. revert s E. induction k as [|k IH]; intros [|x s] E; cbn in *; try discriminate.
  - now injection E as ->.
  - now apply IH.
Qed.
Lemma isparen_eq c : isparen c = true -> c = "("%char.
Proof. unfold isparen. apply Ascii.eqb_eq. Qed.
Lemma from_cases s : fromString s = Throw \/ exists i, i < 12 /\
  ((s = nth i constructorNames [] /\ fromString s = construct i [])
   \/ exists rest, s = nth i constructorNames [] ++ "("%char :: rest
        /\ exists a, argsLoop (S (List.length s)) s (List.length (nth i constructorNames [])) [] = a /\ a <> Undef /\ fromString s = rbind a (construct i)).
Proof.
  unfold fromString. set (i := lower_bound _ _ _ _ _).
  destruct (Nat.eqb_spec i (List.length constructorNames)) as [X|X]; [left; reflexivity|].
  cbn [orb]. destruct (str_eqb (nth i constructorNames []) (match find_first isparen s 0 with Some p => substr s 0 p | None => s end)) eqn:E; [|left; reflexivity].
  cbn [negb]. apply str_eqb_eq in E.
  assert (Hi : i < 12).
  { destruct (Nat.lt_ge_cases i 12) as [H|H]; [exact H|]. change 12 with (List.length constructorNames) in H.
    exfalso. rewrite nth_overflow in E by exact H. clear -E X H.
    (* the bisection stays inside of the array *)
    assert (G : forall f v a l, lower_bound f constructorNames a l v <= a + l).
    { clear. induction f as [|f IH]; intros v a l; cbn [lower_bound]; [lia|].
      destruct (Nat.eqb_spec l 0); [lia|]. assert (Nat.div2 l < l) by (apply Nat.lt_div2; lia).
      destruct (str_ltb _ _); [specialize (IH v (a + Nat.div2 l + 1) (l - Nat.div2 l - 1)); lia|specialize (IH v a (Nat.div2 l)); lia]. }
    pose proof (G (S (List.length constructorNames)) (match find_first isparen s 0 with Some p => substr s 0 p | None => s end) 0 (List.length constructorNames)) as K.
    fold i in K. lia. }
  right. exists i. split; [exact Hi|]. destruct (find_first isparen s 0) as [p|] eqn:F.
  - right. destruct (find_first_split _ _ _ F) as (c & rest & Es & Pc). apply isparen_eq in Pc. subst c.
    assert (Q : substr s 0 p = firstn p s) by reflexivity. rewrite Q in E. rewrite E.
    exists rest. split; [exact Es|].
    assert (Lp : List.length (firstn p s) = p).
    { apply find_first_some in F. rewrite firstn_length. lia. }
    rewrite Lp. eexists. split; [reflexivity|]. split; [|reflexivity].
    apply argsLoop_total; apply find_first_some in F; lia.
  - left. split; [now symmetry|reflexivity].
Qed.

Lemma argsLoop_closed s : forall fuel n args a, argsLoop fuel s n args = Ok a -> exists k, n <= k /\ nth_error s k = Some ")"%char.
Proof.
  induction fuel as [|f IH]; intros n args a H; cbn [argsLoop] in H; [discriminate|].
  unfold char_at in H. destruct (nth_error s n) as [c|] eqn:C.
  2: { destruct (Nat.eqb n (List.length s)) eqn:E; [|discriminate]. cbn in H. apply Nat.eqb_eq in E.
       destruct (find_first notspace s (n + 1)) as [m|] eqn:F; [|discriminate]. apply find_first_some in F. lia. }
  destruct (Ascii.eqb_spec c ")") as [->|_]; [exists n; split; [lia|exact C]|].
  destruct (find_first notspace s (n + 1)) as [m|] eqn:F; [|discriminate].
  destruct (find_first isend s m) as [n'|] eqn:G; [|discriminate].
  destruct (Nat.eqb n' m); [discriminate|]. destruct (find_last notspace s (n' - 1)) as [k|]; [|discriminate].
  destruct (k <? m); [discriminate|]. apply IH in H. destruct H as (q & Q1 & Q2). exists q. split; [|exact Q2].
  apply find_first_some in F, G. lia.
Qed.

(** An accepted string is one of the twelve names, or a name followed by a parenthesis which is
    closed. *)
Theorem C61_names : forall s t, fromString s = Ok t ->
  exists name, In name constructorNames /\ (s = name \/ exists rest rest', s = name ++ "("%char :: rest ++ ")"%char :: rest').
Proof.
  intros s t H. destruct (from_cases s) as [E|(i & Hi & C)]; [congruence|].
  exists (nth i constructorNames []). split; [now apply nth_In|]. destruct C as [[-> _]|(rest & -> & a & E & A & F)]; [now left|right].
  rewrite F in H. destruct a as [args| |]; cbn [rbind] in H; [|discriminate|contradiction]. apply argsLoop_closed in E.
  destruct E as (k & K1 & K2). rewrite nth_error_app2 in K2 by exact K1. remember (k - List.length (nth i constructorNames [])) as q eqn:Q. clear Q K1.
  destruct q as [|q]; cbn [nth_error] in K2; [discriminate|]. apply nth_error_split in K2. destruct K2 as (l1 & l2 & -> & _). now exists l1, l2.
Qed.
Print Assumptions C61_names.

(** The string handling is safe on every input (no access behind the end, no failing assert, it
    terminates): the only undefined results are those of the shifts for dimensions from 31 on. *)
Theorem C61_total : forall s, fromString s = Undef ->
  exists rest a d, stoul a = Some d
    /\ ((s = lit "cube(" ++ rest /\ (31 <= u32 d)%N) \/ (s = lit "general(" ++ rest /\ (32 <= u32 d)%N)).
Proof.
  intros s H. destruct (from_cases s) as [E|(i & Hi & C)]; [congruence|].
  assert (G : forall i args, construct i args = Undef -> exists a d, stoul a = Some d /\ ((i = 0 /\ (31 <= u32 d)%N) \/ (i = 1 /\ (32 <= u32 d)%N))).
  { clear. intros i args. assert (Nn : forall a (f : N -> Res GeometryType), rbind (num a) f = Undef -> exists d, stoul a = Some d /\ f d = Undef).
    { intros a f. unfold num. destruct (stoul a) as [v|]; cbn [rbind]; [|discriminate]. intros E. now exists v. }
    destruct i as [|[|[|[|[|[|[|[|[|[|[|[|i]]]]]]]]]]]]; destruct args as [|a [|b [|? ?]]]; cbn [construct]; try discriminate; intros E; apply Nn in E; destruct E as (d & D1 & D2).
    - exists a, d. split; [exact D1|]. left. split; [reflexivity|]. unfold cube_c in D2. destruct (N.leb_spec 31 (u32 d)); [assumption|]. rewrite andb_false_r in D2. discriminate.
    - apply Nn in D2. destruct D2 as (e & E1 & E2). exists b, e. split; [exact E1|]. right. split; [reflexivity|].
      destruct (N.leb_spec 32 (u32 e)); [assumption|]. destruct (_ <=? _)%N in E2; discriminate.
    - discriminate.
    - discriminate. }
  destruct C as [(-> & E)|(rest & -> & a & _ & A & E)].
  - rewrite E in H. destruct (G _ _ H) as (x & d & _ & [(-> & _)|(-> & _)]); discriminate H.
  - rewrite E in H. destruct a as [args| |]; cbn [rbind] in H; [|discriminate|contradiction].
    destruct (G _ _ H) as (x & d & X & [(-> & L)|(-> & L)]); exists rest, x, d; (split; [exact X|]); [left|right]; (split; [reflexivity|exact L]).
Qed.
Print Assumptions C61_total.

(** Everything behind the closing parenthesis is ignored, and so are characters behind a number;
    dimensions are reduced modulo 256; a minus sign is accepted and makes the shift undefined. *)
Theorem C61_strict_refuted :
  (forall d r, d < 256 -> fromString (lit "simplex(" ++ dec (N.of_nat d) ++ lit ")" ++ r) = Ok (simplex d))
  /\ fromString (lit "cube(2 apples)") = Ok quadrilateral
  /\ fromString (lit "simplex(256)") = Ok vertex
  /\ fromString (lit "cube(-1)") = Undef
  /\ fromString (lit "line()") = Throw.
Proof. split; [intros; now apply from_simplex|]. vm_compute. repeat split. Qed.
Print Assumptions C61_strict_refuted.

(** ** Equality, text and hash *)
(** Up to dimension 3 equal types have the same texts; from dimension 4 on the topology id is
    printed with its lowest bit, which == ignores. *)
Theorem C61_equal_text : forall s t, gt_none s = false -> (gt_dim s <= 3) ->
  (gt_id s < 2 ^ N.of_nat (gt_dim s))%N -> (gt_id t < 2 ^ N.of_nat (gt_dim t))%N ->
  gt_eqb s t = true -> toString s = toString t /\ streamText s = streamText t.
Proof.
  intros s t Ns Ds Is It E. assert (Nt : gt_none t = false).
  { unfold gt_eqb in E. apply andb_prop in E. destruct E as [E _]. apply eqb_prop in E. congruence. }
  apply (C02_eq_meaning s t Ns Nt) in E. destruct E as [E1 E2].
  destruct s as [d n id], t as [d' n' id']. cbn [gt_dim gt_none gt_id] in *. subst d' n n'.
  assert (B : exists k k', k < 2 ^ d /\ k' < 2 ^ d /\ id = N.of_nat k /\ id' = N.of_nat k' /\ Nat.div2 k = Nat.div2 k').
  { exists (N.to_nat id), (N.to_nat id'). rewrite !N2Nat.id. assert (P : (2 ^ N.of_nat d = N.of_nat (2 ^ d))%N) by (rewrite Nat2N.inj_pow; reflexivity).
    rewrite P in *. repeat split; try lia. rewrite !Nat.div2_div. change 2 with (N.to_nat 2). rewrite <- !N2Nat.inj_div. now rewrite E2. }
  destruct B as (k & k' & Hk & Hk' & -> & -> & Hd). clear E2 Is It.
  assert (C : forallb (fun d => forallb (fun k => forallb (fun k' => negb (Nat.div2 k =? Nat.div2 k')
       || (str_eqb (toString (mkGT d false (N.of_nat k))) (toString (mkGT d false (N.of_nat k')))
           && str_eqb (streamText (mkGT d false (N.of_nat k))) (streamText (mkGT d false (N.of_nat k'))))) (seq 0 (2 ^ d))) (seq 0 (2 ^ d))) (seq 0 4) = true)
    by (vm_compute; reflexivity).
  rewrite forallb_forall in C. specialize (C d ltac:(apply in_seq; lia)). cbv beta in C.
  rewrite forallb_forall in C. specialize (C k ltac:(apply in_seq; lia)). cbv beta in C.
  rewrite forallb_forall in C. specialize (C k' ltac:(apply in_seq; lia)). cbv beta in C.
  rewrite Hd, Nat.eqb_refl in C. cbn [negb orb] in C. apply andb_prop in C. destruct C as [C1 C2].
  split; now apply str_eqb_eq.
Qed.
Print Assumptions C61_equal_text.

Theorem C61_equal_text_refuted : exists s t, gt_eqb s t = true /\ toString s <> toString t /\ streamText s <> streamText t
  /\ gt_dim s = 4 /\ gt_none s = false /\ (gt_id s < 16)%N /\ (gt_id t < 16)%N.
Proof. exists (mkGT 4 false 2), (mkGT 4 false 3). split; [reflexivity|]. split; [vm_compute; discriminate|]. split; [vm_compute; discriminate|]. repeat split. Qed.
Print Assumptions C61_equal_text_refuted.

(** The text written by << determines the type. *)
Lemma digits_app_inv D1 D2 c1 c2 r1 r2 : digits D1 -> digits D2 -> isdigit c1 = false -> isdigit c2 = false ->
  D1 ++ c1 :: r1 = D2 ++ c2 :: r2 -> D1 = D2 /\ c1 :: r1 = c2 :: r2.
Proof.
  intros H1 H2 C1 C2 E. assert (X : D1 = D2).
  { rewrite <- (takewhile_app isdigit D1 (c1 :: r1) H1 C1), <- (takewhile_app isdigit D2 (c2 :: r2) H2 C2). now rewrite E. }
  split; [exact X|]. subst D2. now apply app_inv_head in E.
Qed.
Theorem C61_stream_injective : forall s t, gt_dim s < 256 -> gt_dim t < 256 -> streamText s = streamText t -> gt_eqb s t = true.
Proof.
  intros s t Ds Dt. destruct (C04_simplex_cube_characterised s Ds) as [Ss Sc]. destruct (C04_simplex_cube_characterised t Dt) as [Ts Tc].
  assert (Dd : forall n, digits (dec n)) by (intros; apply dec_spec).
  assert (K : forall a b r r', dec a ++ lit ")" ++ r = dec b ++ lit ")" ++ r' -> a = b).
  { intros a b r r' E. apply (digits_app_inv (dec a) (dec b) ")"%char ")"%char r r' (Dd a) (Dd b) eq_refl eq_refl) in E. now apply dec_inj. }
  assert (K0 : forall a b, dec a ++ lit ")" = dec b ++ lit ")" -> a = b).
  { intros a b E. apply (K a b [] []). exact E. }
  unfold streamText.
  destruct (isSimplex s) eqn:S1; [|destruct (isCube s) eqn:S2; [|destruct (isPyramidT s) eqn:S3; [|destruct (isPrismT s) eqn:S4; [|destruct (gt_none s) eqn:S5]]]];
  (destruct (isSimplex t) eqn:T1; [|destruct (isCube t) eqn:T2; [|destruct (isPyramidT t) eqn:T3; [|destruct (isPrismT t) eqn:T4; [|destruct (gt_none t) eqn:T5]]]]);
  intros E; try (cbn in E; discriminate E).
  - apply app_inv_head, K0, Nat2N.inj in E. eapply gt_eqb_trans; [now apply Ss|]. rewrite E. apply gt_eqb_sym. now apply Ts.
  - apply app_inv_head, K0, Nat2N.inj in E. eapply gt_eqb_trans; [now apply Sc|]. rewrite E. apply gt_eqb_sym. now apply Tc.
  - unfold isPyramidT, named in S3, T3. apply andb_prop in S3, T3. destruct S3 as [S3 S3'], T3 as [T3 T3']. apply andb_prop in S3, T3. destruct S3 as [X1 X2], T3 as [Y1 Y2].
    apply negb_true_iff in X1, Y1. apply Nat.eqb_eq in X2, Y2. apply N.eqb_eq in S3', T3'. apply C02_eq_meaning; [exact X1|exact Y1|]. split; [congruence|].
    rewrite lor1 in S3', T3'. lia.
  - unfold isPrismT, named in S4, T4. apply andb_prop in S4, T4. destruct S4 as [S4 S3'], T4 as [T4 T3']. apply andb_prop in S4, T4. destruct S4 as [X1 X2], T4 as [Y1 Y2].
    apply negb_true_iff in X1, Y1. apply Nat.eqb_eq in X2, Y2. apply N.eqb_eq in S3', T3'. apply C02_eq_meaning; [exact X1|exact Y1|]. split; [congruence|].
    rewrite lor1 in S3', T3'. lia.
  - unfold gt_eqb. rewrite S5, T5. reflexivity.
  - apply app_inv_head in E. cbn [lit list_ascii_of_string app] in E.
    apply digits_app_inv in E; [|apply Dd|apply Dd|reflexivity|reflexivity]. destruct E as [E1 E2]. apply dec_inj in E1.
    injection E2 as E2. apply K0, Nat2N.inj in E2. unfold gt_eqb. rewrite S5, T5, E1, E2, Nat.eqb_refl, N.eqb_refl. reflexivity.
Qed.
Print Assumptions C61_stream_injective.

(** __hash__ is compatible with == except for none types, which are all equal but hashed by
    their dimension. *)
Theorem C61_hash : forall s t, gt_none s = false -> gt_eqb s t = true -> pyHash s = pyHash t.
Proof.
  intros s t Ns E. unfold gt_eqb in E. rewrite Ns in E. apply andb_prop in E. destruct E as [E1 E2]. apply eqb_prop in E1. cbn [orb] in E2.
  apply andb_prop in E2. destruct E2 as [E2 E3]. apply Nat.eqb_eq in E2. apply N.eqb_eq in E3.
  unfold pyHash, global_index, local_index. rewrite <- E1, Ns, E2, E3. reflexivity.
Qed.
Print Assumptions C61_hash.
Theorem C61_hash_refuted : exists s t, gt_eqb s t = true /\ pyHash s <> pyHash t.
Proof. exists (none 2), (none 3). split; [reflexivity|vm_compute; discriminate]. Qed.
Print Assumptions C61_hash_refuted.

Example C61_example :
  toString (mkGT 4 false 11) = lit "general(11, 4)" /\ fromString (lit "general( 11 ,4 )") = Ok (mkGT 4 false 11)
  /\ fromString (lit "general(16, 4)") = Throw /\ fromString (lit "cube(4)") = Ok (cube 4) /\ toString (cube 4) = lit "cube(4)"
  /\ fromString (lit "square") = Throw /\ fromString (lit "cube(") = Throw /\ fromString (lit "cube(3,)") = Throw
  /\ streamText prism = lit "(prism, 3)" /\ streamText (mkGT 12 false 10) = lit "(other [10], 12)".
Proof. vm_compute. repeat split. Qed.
