(** C61: the language accepted by geometryTypeFromString, written as a grammar. *)
From Coq Require Import NArith ZArith PeanoNat Bool List Ascii String Lia.
From Verif Require Import M_Type M_TypeIndex M_TypeString P_Type P_TypeString T_Type T_TypeString.
Import ListNotations.

(** ** The grammar *)
Definition white (c : ascii) : Prop := In c [" "; "009"; "010"; "011"; "012"; "013"]%char.
Definition digit_char (c : ascii) : Prop := In c ["0"; "1"; "2"; "3"; "4"; "5"; "6"; "7"; "8"; "9"]%char.
(** white space, a sign, zeros, a decimal number below 2^64, and something that does not start with a digit *)
Definition number (s : str) (v : N) : Prop :=
  exists ws sg k n rest, s = ws ++ sg ++ repeat "0"%char k ++ dec n ++ rest /\ Forall white ws /\
    (forall c r, rest = c :: r -> ~ digit_char c) /\ (n < 2 ^ 64)%N /\
    (((sg = [] \/ sg = ["+"%char]) /\ v = n) \/ (sg = ["-"%char] /\ v = ((2 ^ 64 - n) mod 2 ^ 64)%N)).
(** an argument between spaces *)
Definition argument (a core : str) : Prop :=
  exists sp sp', a = sp ++ core ++ sp' /\ Forall (eq " "%char) sp /\ Forall (eq " "%char) sp' /\
    (exists c r, core = c :: r /\ c <> " "%char) /\ (exists r c, core = r ++ [c] /\ c <> " "%char) /\
    ~ In ","%char core /\ ~ In ")"%char core.
(** arguments separated by commas; anything behind the parenthesis *)
Inductive arglist : str -> list str -> Prop :=
| AL_last : forall a core r, argument a core -> arglist (a ++ ")"%char :: r) [core]
| AL_more : forall a core rest cores, argument a core -> arglist rest cores -> arglist (a ++ ","%char :: rest) (core :: cores).
(** the types *)
Inductive means : str -> list str -> GeometryType -> Prop :=
| M_vertex : means (lit "vertex") [] (mkGT 0 false 0)
| M_line : means (lit "line") [] (mkGT 1 false 0)
| M_triangle : means (lit "triangle") [] (mkGT 2 false 0)
| M_quadrilateral : means (lit "quadrilateral") [] (mkGT 2 false 3)
| M_tetrahedron : means (lit "tetrahedron") [] (mkGT 3 false 0)
| M_pyramid : means (lit "pyramid") [] (mkGT 3 false 3)
| M_prism : means (lit "prism") [] (mkGT 3 false 5)
| M_hexahedron : means (lit "hexahedron") [] (mkGT 3 false 7)
| M_simplex : forall a v, number a v -> means (lit "simplex") [a] (mkGT (N.to_nat (v mod 256)) false 0)
| M_none : forall a v, number a v -> means (lit "none") [a] (mkGT (N.to_nat (v mod 256)) true 0)
| M_cube : forall a v, number a v -> (v mod 2 ^ 32 < 31)%N ->
    means (lit "cube") [a] (mkGT (N.to_nat (v mod 2 ^ 32)) false (if (v mod 2 ^ 32 <? 2)%N then 0 else 2 ^ (v mod 2 ^ 32) - 1)%N)
| M_general : forall a b i d, number a i -> number b d -> (d mod 2 ^ 32 < 32)%N -> (i < 2 ^ (d mod 2 ^ 32))%N ->
    means (lit "general") [a; b] (mkGT (N.to_nat (d mod 2 ^ 32)) false i).
Definition accepts (s : str) (t : GeometryType) : Prop :=
  exists name, (s = name /\ means name [] t)
    \/ exists rest cores, s = name ++ "("%char :: rest /\ arglist rest cores /\ means name cores t.

(** ** Numbers *)
Lemma all_chars (P : ascii -> bool) : (forall n, n < 256 -> P (ascii_of_nat n) = true) -> forall c, P c = true.
Proof. intros H c. rewrite <- (ascii_nat_embedding c). apply H. apply nat_ascii_bounded. Qed.
Lemma white_spec c : isspace c = true <-> white c.
Proof.
  split.
  - intro H. destruct c as [a b d e f g h i]. destruct a, b, d, e, f, g, h, i; cbv in H; try discriminate H; cbv; auto 10.
  - intro H. unfold white in H. cbn [In] in H. repeat (destruct H as [<-|H]; [reflexivity|]). contradiction.
Qed.
Lemma digit_spec c : isdigit c = true <-> digit_char c.
Proof.
  split.
  - intro H. destruct c as [a b d e f g h i]. destruct a, b, d, e, f, g, h, i; cbv in H; try discriminate H; cbv; auto 12.
  - intro H. unfold digit_char in H. cbn [In] in H. repeat (destruct H as [<-|H]; [reflexivity|]). contradiction.
Qed.
Lemma digit_inv c : isdigit c = true -> (N_of_ascii c - 48 < 10)%N /\ digit (N_of_ascii c - 48) = c.
Proof.
  intro H. destruct c as [a b d e f g h i]. destruct a, b, d, e, f, g, h, i; cbv in H; try discriminate H; cbv; auto.
Qed.

Lemma dec_aux_enough f : forall n acc g, (n < 10 ^ N.of_nat f)%N -> f <> 0 -> (n < 10 ^ N.of_nat g)%N -> g <> 0 -> dec_aux f n acc = dec_aux g n [] ++ acc.
Proof.
  assert (A : forall f n acc, dec_aux f n acc = dec_aux f n [] ++ acc).
  { clear. induction f as [|f IH]; intros n acc; [reflexivity|]. cbn [dec_aux]. destruct (n / 10 =? 0)%N; [reflexivity|].
    rewrite (IH _ (_ :: acc)), (IH _ [_]), <- app_assoc. reflexivity. }
  intros n acc g Hf Nf Hg Ng. rewrite A. f_equal. clear acc. revert g n Hf Nf Hg Ng.
  induction f as [|f IH]; intros g n Hf Nf Hg Ng; [now elim Nf|]. destruct g as [|g]; [now elim Ng|]. cbn [dec_aux].
  destruct (N.eqb_spec (n / 10) 0) as [E|E]; [reflexivity|]. rewrite (A f), (A g). f_equal.
  assert (B : forall h, (n < 10 ^ N.of_nat (S h))%N -> (n / 10 < 10 ^ N.of_nat h)%N /\ h <> 0).
  { intros h Hh. rewrite Nat2N.inj_succ, N.pow_succ_r' in Hh. assert (n / 10 < 10 ^ N.of_nat h)%N by (apply N.div_lt_upper_bound; lia).
    split; [assumption|]. intros ->. change (10 ^ N.of_nat 0)%N with 1%N in H. apply E. now apply N.lt_1_r. }
  apply IH; now apply B.
Qed.
Lemma dec_fuel n : (n < 10 ^ N.of_nat (S (N.size_nat n)))%N.
Proof.
  assert (L : (n < 2 ^ N.of_nat (N.size_nat n))%N).
  { destruct n as [|p]; [reflexivity|]. cbn [N.size_nat]. induction p; cbn [Pos.size_nat]; rewrite ?Nat2N.inj_succ, ?N.pow_succ_r'; try reflexivity; lia. }
  eapply N.lt_le_trans; [exact L|]. apply N.le_trans with (10 ^ N.of_nat (N.size_nat n))%N; [apply N.pow_le_mono_l; lia|apply N.pow_le_mono_r; lia].
Qed.
Lemma dec_step n d : (0 < n)%N -> (d < 10)%N -> dec (10 * n + d) = dec n ++ [digit d].
Proof.
  intros Hn Hd. unfold dec. set (m := (10 * n + d)%N).
  assert (Q : (m / 10 = n)%N) by (symmetry; apply N.div_unique with d; unfold m; lia).
  assert (R : (m mod 10 = d)%N) by (symmetry; apply N.mod_unique with n; unfold m; lia).
  pose proof (dec_fuel m) as F. destruct (N.size_nat m) as [|k] eqn:E.
  - cbn in F. unfold m in F. lia.
  - cbn [dec_aux]. rewrite Q, R. destruct (N.eqb_spec n 0); [lia|]. change (let acc := [digit d] in dec_aux (S k) n acc) with (dec_aux (S k) n [digit d]).
    apply (dec_aux_enough (S k) n [digit d] (S (N.size_nat n))); try discriminate; [|apply dec_fuel].
    rewrite Nat2N.inj_succ, N.pow_succ_r' in F. unfold m in F. lia.
Qed.
Lemma digits_dec D : digits D -> D <> [] -> exists k, D = repeat "0"%char k ++ dec (value D).
Proof.
  induction D as [|c D IH] using rev_ind; [now intros|]. intros HD _. apply Forall_app in HD. destruct HD as [HD Hc]. inversion Hc as [|? ? Hc' _]; subst.
  destruct (digit_inv c Hc') as [C1 C2]. rewrite value_snoc.
  assert (S1 : forall d, (d < 10)%N -> dec d = [digit d]).
  { intros d Hd. destruct (small_id 10 d Hd) as (k & Hk & ->). do 10 (destruct k as [|k]; [reflexivity|]). lia. }
  destruct D as [|x D].
  - exists 0. cbn [app repeat value fold_left]. rewrite N.mul_0_r, N.add_0_l, S1, C2 by exact C1. reflexivity.
  - destruct (IH HD ltac:(discriminate)) as (k & E). destruct (N.eq_dec (value (x :: D)) 0) as [Z|Z].
    + rewrite Z in *. rewrite N.mul_0_r, N.add_0_l, S1, C2 by exact C1. exists (S k). rewrite E. change (dec 0) with ["0"%char].
      rewrite <- (repeat_cons k "0"%char). reflexivity.
    + exists k. rewrite dec_step, C2 by lia. rewrite app_assoc, <- E. reflexivity.
Qed.
Lemma value_zeros k D : value (repeat "0"%char k ++ D) = value D.
Proof. unfold value. rewrite fold_left_app. f_equal. induction k; [reflexivity|exact IHk]. Qed.

Lemma dropwhile_spec p s : exists a, s = a ++ dropwhile p s /\ Forall (fun c => p c = true) a /\ forall c r, dropwhile p s = c :: r -> p c = false.
Proof.
  induction s as [|c s (a & E & F & G)]; [exists []; repeat split; [constructor|discriminate]|]. cbn [dropwhile]. destruct (p c) eqn:P.
  - exists (c :: a). split; [cbn; now rewrite <- E|]. split; [now constructor|exact G].
  - exists []. split; [reflexivity|]. split; [constructor|]. intros c' r H. injection H as <- <-. exact P.
Qed.
Lemma dropwhile_app p a s : Forall (fun c => p c = true) a -> (forall c r, s = c :: r -> p c = false) -> dropwhile p (a ++ s) = s.
Proof. induction 1 as [|c a H F IH]; intro G; cbn [app dropwhile]; [|rewrite H; now apply IH]. destruct s as [|c r]; [reflexivity|]. cbn [dropwhile]. now rewrite (G c r eq_refl). Qed.
Lemma takewhile_spec p s : exists r, s = takewhile p s ++ r /\ Forall (fun c => p c = true) (takewhile p s) /\ forall c q, r = c :: q -> p c = false.
Proof.
  induction s as [|c s (r & E & F & G)]; [exists []; repeat split; [constructor|discriminate]|]. cbn [takewhile]. destruct (p c) eqn:P.
  - exists r. split; [cbn; now rewrite <- E|]. split; [now constructor|exact G].
  - exists (c :: s). split; [reflexivity|]. split; [constructor|]. intros c' q H. injection H as <- <-. exact P.
Qed.

Theorem C61_number : forall s v, stoul s = Some v <-> number s v.
Proof.
  intros s v. split.
  - unfold stoul. destruct (dropwhile_spec isspace s) as (ws & Es & Hw & Hn). set (s1 := dropwhile isspace s) in *.
    assert (K : forall neg sg s2, s1 = sg ++ s2 -> (neg = false /\ (sg = [] \/ sg = ["+"%char]) \/ neg = true /\ sg = ["-"%char]) ->
      match takewhile isdigit s2 with [] => None | d => if (2 ^ 64 <=? value d)%N then None else Some (if neg then (2 ^ 64 - value d) mod 2 ^ 64 else value d)%N end = Some v -> number s v).
    { intros neg sg s2 E2 HS H. destruct (takewhile_spec isdigit s2) as (rest & Er & Hd & Hr). set (D := takewhile isdigit s2) in *.
      assert (HD : D <> []) by (intro X; rewrite X in H; discriminate). destruct (digits_dec D Hd HD) as (k & Ek).
      replace (match D with [] => None | _ => _ end) with (if (2 ^ 64 <=? value D)%N then None else Some (if neg then (2 ^ 64 - value D) mod 2 ^ 64 else value D)%N) in H by (destruct D; [now elim HD|reflexivity]).
      destruct (N.leb_spec (2 ^ 64) (value D)) as [|L]; [discriminate|]. injection H as <-.
      exists ws, sg, k, (value D), rest. split; [rewrite Es, E2, Er at 1; rewrite Ek at 1; now rewrite <- app_assoc|].
      split; [eapply Forall_impl; [|exact Hw]; intros c; apply white_spec|]. split; [intros c q Eq; rewrite <- digit_spec; rewrite (Hr c q Eq); discriminate|].
      split; [exact L|]. destruct HS as [[-> HS]|[-> HS]]; [left|right]; auto. }
    destruct s1 as [|c r] eqn:E1.
    + intro H. exact (K false [] [] eq_refl (or_introl (conj eq_refl (or_introl eq_refl))) H).
    + destruct (Ascii.eqb_spec c "+") as [->|_]; [intro H; exact (K false ["+"%char] r eq_refl (or_introl (conj eq_refl (or_intror eq_refl))) H)|].
      destruct (Ascii.eqb_spec c "-") as [->|_]; [intro H; exact (K true ["-"%char] r eq_refl (or_intror (conj eq_refl eq_refl)) H)|].
      intro H. exact (K false [] (c :: r) eq_refl (or_introl (conj eq_refl (or_introl eq_refl))) H).
  - intros (ws & sg & k & n & rest & -> & Hw & Hr & L & HS). unfold stoul.
    destruct (dec_spec n) as (D1 & D2 & D3). set (D := repeat "0"%char k ++ dec n).
    assert (HD : digits D) by (apply Forall_app; split; [clear; induction k; constructor; [reflexivity|assumption]|exact D1]).
    assert (ND : exists d D', D = d :: D' /\ isdigit d = true).
    { destruct D as [|d D'] eqn:E; [|exists d, D'; split; [reflexivity|now inversion HD]]. unfold D in E. apply app_eq_nil in E. destruct E. contradiction. }
    destruct ND as (d & D' & ED & Hd). destruct (isdigit_cases d Hd) as (I1 & I2 & I3 & _).
    rewrite dropwhile_app.
    2: { eapply Forall_impl; [|exact Hw]. intros c. apply white_spec. }
    2: { intros c r E. destruct HS as [[[->| ->] _]|[-> _]]; cbn [app] in E; [|now injection E as <- _|now injection E as <- _].
         rewrite app_assoc in E. fold D in E. rewrite ED in E. injection E as <- _. exact I1. }
    assert (T : takewhile isdigit (D ++ rest) = D).
    { apply takewhile_app; [exact HD|]. destruct rest as [|c q]; [exact I|]. destruct (isdigit c) eqn:X; [|reflexivity]. elim (Hr c q eq_refl). now apply digit_spec. }
    assert (V : value D = n) by (unfold D; now rewrite value_zeros).
    assert (F : forall neg : bool, match takewhile isdigit (D ++ rest) with [] => None | d => if (2 ^ 64 <=? value d)%N then None else Some (if neg then (2 ^ 64 - value d) mod 2 ^ 64 else value d)%N end
      = Some (if neg then (2 ^ 64 - n) mod 2 ^ 64 else n)%N).
    { intro neg. rewrite T. revert V. rewrite ED. intro V. cbv beta iota zeta. rewrite V. destruct (N.leb_spec (2 ^ 64) n); [lia|reflexivity]. }
    rewrite (app_assoc (repeat _ k)). fold D. destruct HS as [[[->| ->] ->]|[-> ->]].
    + cbn [app]. rewrite ED. cbn [app]. rewrite I2, I3. change (d :: D' ++ rest) with ((d :: D') ++ rest). rewrite <- ED. exact (F false).
    + exact (F false).
    + exact (F true).
Qed.
Print Assumptions C61_number.

(** ** The argument loop *)
Lemma notspace_eq c : notspace c = false <-> c = " "%char.
Proof. unfold notspace. rewrite negb_false_iff. apply Ascii.eqb_eq. Qed.
Lemma isend_eq c : isend c = true <-> c = ","%char \/ c = ")"%char.
Proof. unfold isend. rewrite orb_true_iff, !Ascii.eqb_eq. tauto. Qed.
Lemma spaces sp : Forall (eq " "%char) sp -> Forall (fun c => notspace c = false) sp.
Proof. intro H. eapply Forall_impl; [|exact H]. intros c <-. reflexivity. Qed.
Lemma find_last_skip p s n c : nth_error s n = Some c -> p c = true -> forall m, n <= m -> (forall k, n < k <= m -> exists x, nth_error s k = Some x /\ p x = false) -> find_last p s m = Some n.
Proof.
  intros E P. induction m as [|m IH]; intros L H.
  - replace n with 0 in * by lia. cbn [find_last]. now rewrite E, P.
  - cbn [find_last]. destruct (Nat.eq_dec n (S m)) as [->|N]; [now rewrite E, P|].
    destruct (H (S m) ltac:(lia)) as (x & -> & ->). apply IH; [lia|]. intros k Hk. apply H. lia.
Qed.
Lemma arg_step f pre c sp core sp' e r args : c <> ")"%char -> Forall (eq " "%char) sp -> Forall (eq " "%char) sp' ->
  (exists x q, core = x :: q /\ x <> " "%char) -> (exists q x, core = q ++ [x] /\ x <> " "%char) -> ~ In ","%char core -> ~ In ")"%char core -> isend e = true ->
  argsLoop (S f) (pre ++ c :: (sp ++ core ++ sp') ++ e :: r) (List.length pre) args
  = argsLoop f (pre ++ c :: (sp ++ core ++ sp') ++ e :: r) (List.length (pre ++ c :: sp ++ core ++ sp')) (args ++ [core]).
Proof.
  intros C S1 S2 (x & q & Ex & Nx) (q' & z & Ez & Nz) N1 N2 He. set (s := pre ++ c :: (sp ++ core ++ sp') ++ e :: r). cbn [argsLoop].
  assert (Ca : char_at s (List.length pre) = Some c) by (unfold char_at, s; rewrite nth_error_app2, Nat.sub_diag by lia; reflexivity).
  rewrite Ca. destruct (Ascii.eqb_spec c ")") as [X|_]; [contradiction|].
  set (m := List.length pre + 1 + List.length sp).
  assert (F1 : find_first notspace s (List.length pre + 1) = Some m).
  { replace s with ((pre ++ [c]) ++ sp ++ x :: (q ++ sp' ++ e :: r)) by (unfold s; rewrite Ex; repeat (rewrite <- app_assoc; cbn [app]); reflexivity).
    apply find_first_at; [rewrite app_length; reflexivity|now apply spaces|]. destruct (notspace x) eqn:Y; [reflexivity|]. now apply notspace_eq in Y. }
  rewrite F1.
  assert (F2 : find_first isend s m = Some (m + List.length (core ++ sp'))).
  { replace s with ((pre ++ [c] ++ sp) ++ (core ++ sp') ++ e :: r) by (unfold s; repeat (rewrite <- app_assoc; cbn [app]); reflexivity).
    apply find_first_at; [unfold m; rewrite !app_length; cbn [List.length]; lia| |exact He]. apply Forall_app. split.
    - apply Forall_forall. intros y Hy. destruct (isend y) eqn:Y; [|reflexivity]. apply isend_eq in Y. destruct Y as [-> | ->]; contradiction.
    - eapply Forall_impl; [|exact S2]. intros y <-. reflexivity. }
  rewrite F2. assert (Lc : List.length core = S (List.length q')) by (rewrite Ez, app_length; cbn; lia).
  rewrite app_length. destruct (Nat.eqb_spec (m + (List.length core + List.length sp')) m) as [Y|_]; [lia|].
  assert (F3 : find_last notspace s (m + (List.length core + List.length sp') - 1) = Some (m + List.length q')).
  { apply find_last_skip with z.
    - replace s with ((pre ++ [c] ++ sp ++ q') ++ z :: sp' ++ e :: r) by (unfold s; rewrite Ez; repeat (rewrite <- app_assoc; cbn [app]); reflexivity).
      rewrite nth_error_app2; unfold m; rewrite !app_length; cbn [List.length]; [|lia]. replace (_ - _) with 0 by lia. reflexivity.
    - destruct (notspace z) eqn:Y; [reflexivity|]. now apply notspace_eq in Y.
    - lia.
    - intros k Hk. replace s with ((pre ++ [c] ++ sp ++ core) ++ sp' ++ e :: r) by (unfold s; repeat (rewrite <- app_assoc; cbn [app]); reflexivity).
      rewrite nth_error_app2; [|rewrite !app_length; cbn [List.length]; unfold m in Hk; lia]. rewrite nth_error_app1; [|rewrite !app_length; cbn [List.length]; unfold m in *; lia].
      set (j := k - _). destruct (nth_error sp' j) as [y|] eqn:Y.
      + exists y. split; [reflexivity|]. apply nth_error_In in Y. rewrite Forall_forall in S2. rewrite <- (S2 y Y). reflexivity.
      + apply nth_error_None in Y. unfold j in Y. rewrite !app_length in Y. cbn [List.length] in Y. unfold m in *. lia. }
  rewrite F3. destruct (Nat.ltb_spec (m + List.length q') m) as [Y|_]; [lia|].
  f_equal; [unfold m; rewrite !app_length; cbn [List.length]; rewrite !app_length; lia|]. f_equal. f_equal. unfold substr. replace (m + List.length q' - m + 1) with (List.length core) by lia.
  replace s with ((pre ++ [c] ++ sp) ++ core ++ sp' ++ e :: r) by (unfold s; repeat (rewrite <- app_assoc; cbn [app]); reflexivity).
  rewrite skipn_len by (unfold m; rewrite !app_length; cbn [List.length]; lia). rewrite firstn_app, Nat.sub_diag, firstn_all. cbn [firstn]. apply app_nil_r.
Qed.

Lemma args_of_list rest cores : arglist rest cores -> forall f pre c args, c <> ")"%char -> List.length rest < f ->
  argsLoop (S f) (pre ++ c :: rest) (List.length pre) args = Ok (args ++ cores).
Proof.
  induction 1 as [a core r (sp & sp' & -> & H1 & H2 & H3 & H4 & H5 & H6)|a core rest cores (sp & sp' & -> & H1 & H2 & H3 & H4 & H5 & H6) HL IH]; intros f pre c args C Hf.
  - rewrite arg_step by (assumption || reflexivity). destruct f as [|f]; [lia|].
    replace (pre ++ c :: (sp ++ core ++ sp') ++ ")"%char :: r) with ((pre ++ c :: sp ++ core ++ sp') ++ ")"%char :: r) by (rewrite <- app_assoc; reflexivity).
    apply argsLoop_end.
  - rewrite arg_step by (assumption || reflexivity). destruct f as [|f]; [lia|].
    replace (pre ++ c :: (sp ++ core ++ sp') ++ ","%char :: rest) with ((pre ++ c :: sp ++ core ++ sp') ++ ","%char :: rest) by (rewrite <- app_assoc; reflexivity).
    rewrite IH; [now rewrite <- app_assoc|discriminate|]. rewrite app_length in Hf. cbn [List.length] in Hf. lia.
Qed.

Lemma ffrom_cut p s : forall i k, ffrom p s i = Some k -> exists a c r, s = a ++ c :: r /\ p c = true /\ Forall (fun x => p x = false) a /\ k = i + List.length a.
Proof.
  induction s as [|c s IH]; intros i k H; cbn [ffrom] in H; [discriminate|]. destruct (p c) eqn:P.
  - injection H as <-. exists [], c, s. cbn. repeat split; auto.
  - apply IH in H. destruct H as (a & d & r & -> & H1 & H2 & ->). exists (c :: a), d, r. cbn [app List.length]. repeat split; auto. lia.
Qed.
Lemma last_cut (core : str) : (exists x q, core = x :: q /\ x <> " "%char) -> exists q z sp, core = (q ++ [z]) ++ sp /\ z <> " "%char /\ Forall (eq " "%char) sp.
Proof.
  intros (x & q & -> & Nx). induction q as [|y q IH] using rev_ind; [exists [], x, []; auto|].
  destruct (Ascii.ascii_dec y " ") as [->|Ny].
  - destruct IH as (q' & z & sp & E & H1 & H2). exists q', z, (sp ++ [" "%char]). split; [|split; [exact H1|apply Forall_app; auto]].
    rewrite app_assoc, <- E. reflexivity.
  - exists (x :: q), y, []. rewrite app_nil_r. auto.
Qed.

Lemma args_list f : forall pre c rest args res, c <> ")"%char -> argsLoop f (pre ++ c :: rest) (List.length pre) args = Ok res ->
  exists cores, arglist rest cores /\ res = args ++ cores.
Proof.
  induction f as [|f IH]; intros pre c rest args res C H; [discriminate|].
  assert (H' := H). cbn [argsLoop] in H. set (s := pre ++ c :: rest) in *.
  assert (Ca : char_at s (List.length pre) = Some c) by (unfold char_at, s; rewrite nth_error_app2, Nat.sub_diag by lia; reflexivity).
  rewrite Ca in H. destruct (Ascii.eqb_spec c ")") as [X|_]; [contradiction|].
  destruct (find_first notspace s (List.length pre + 1)) as [m|] eqn:F1; [|discriminate].
  assert (Sk : forall a b, s = a ++ b -> skipn (List.length a) s = b) by (intros a b ->; now apply skipn_len).
  unfold find_first in F1. replace (List.length pre + 1) with (List.length (pre ++ [c])) in F1 at 1 by (rewrite app_length; reflexivity).
  rewrite (Sk (pre ++ [c]) rest) in F1 by (unfold s; now rewrite <- app_assoc).
  apply ffrom_cut in F1. destruct F1 as (sp & x & r1 & Er & Px & Hsp & Em).
  destruct (find_first isend s m) as [n|] eqn:F2; [|discriminate]. unfold find_first in F2.
  replace m with (List.length (pre ++ c :: sp)) in F2 at 1 by (rewrite app_length; cbn; lia).
  rewrite (Sk (pre ++ c :: sp) (x :: r1)) in F2 by (unfold s; rewrite Er, <- app_assoc; reflexivity).
  apply ffrom_cut in F2. destruct F2 as (D & e & r & ED & Pe & HD & En).
  destruct (Nat.eqb_spec n m) as [|Nn]; [discriminate|]. clear H.
  destruct D as [|y D]; [cbn in En; lia|]. injection ED as <- ED.
  assert (Nx : x <> " "%char) by (intros ->; discriminate Px).
  destruct (last_cut (x :: D) ltac:(now exists x, D)) as (q & z & sp' & Ez & Nz & Hsp').
  assert (Hsp1 : Forall (eq " "%char) sp) by (eapply Forall_impl; [|exact Hsp]; intros t Ht; symmetry; now apply notspace_eq).
  assert (Cr : exists t u, q ++ [z] = t :: u /\ t <> " "%char).
  { destruct q as [|t q]; cbn [app] in *; injection Ez as -> Ez; eauto. }
  assert (Ne : forall w, In w (q ++ [z]) -> isend w = false).
  { intros w Hw. rewrite Forall_forall in HD. apply HD. rewrite Ez. apply in_or_app. now left. }
  assert (Erest : rest = (sp ++ (q ++ [z]) ++ sp') ++ e :: r).
  { rewrite Er, ED. change (x :: D ++ e :: r) with ((x :: D) ++ e :: r). rewrite Ez. now rewrite <- !app_assoc. }
  assert (A : argument (sp ++ (q ++ [z]) ++ sp') (q ++ [z])).
  { exists sp, sp'. split; [reflexivity|]. split; [exact Hsp1|]. split; [exact Hsp'|]. split; [exact Cr|]. split; [eauto|]. split; intro Y; apply Ne in Y; discriminate. }
  unfold s in H'. rewrite Erest in H' |- *. rewrite arg_step in H'; [|exact C|exact Hsp1|exact Hsp'|exact Cr|eauto|intro Y; apply Ne in Y; discriminate|intro Y; apply Ne in Y; discriminate|exact Pe].
  replace (pre ++ c :: (sp ++ (q ++ [z]) ++ sp') ++ e :: r) with ((pre ++ c :: sp ++ (q ++ [z]) ++ sp') ++ e :: r) in H' by (rewrite <- app_assoc; reflexivity).
  apply isend_eq in Pe. destruct Pe as [-> | ->].
  - apply IH in H'; [|discriminate]. destruct H' as (cores & HL & ->). exists ((q ++ [z]) :: cores). split; [now constructor|now rewrite <- app_assoc].
  - destruct f as [|f]; [discriminate|]. rewrite argsLoop_end in H'. injection H' as <-. exists [q ++ [z]]. split; [now constructor|reflexivity].
Qed.

(** ** The constructors *)
Lemma u32_256 v : (u32 v mod 256 = v mod 256)%N.
Proof.
  unfold u32. rewrite (N.div_mod v (2 ^ 32)) at 2 by discriminate. change (2 ^ 32)%N with (256 * 2 ^ 24)%N at 2. rewrite <- N.mul_assoc, N.add_comm, N.mul_comm, N.mod_add by discriminate. reflexivity.
Qed.
Lemma uchar_u32 v : to_uchar (N.to_nat (u32 v)) = N.to_nat (v mod 256).
Proof. unfold to_uchar. rewrite <- u32_256, N2Nat.inj_mod. reflexivity. Qed.
Lemma num_ok a v : num a = Ok v <-> number a v.
Proof. unfold num. rewrite <- C61_number. destruct (stoul a); split; intro H; inversion H; reflexivity. Qed.

Lemma cube_ok v t : cube_c (u32 v) = Ok t <-> (v mod 2 ^ 32 < 31)%N /\ t = mkGT (N.to_nat (v mod 2 ^ 32)) false (if (v mod 2 ^ 32 <? 2)%N then 0 else 2 ^ (v mod 2 ^ 32) - 1)%N.
Proof.
  unfold cube_c. change (v mod 2 ^ 32)%N with (u32 v). set (d := u32 v).
  destruct (N.ltb_spec 1 d); destruct (N.leb_spec 31 d); cbn [andb].
  1: split; [discriminate|intros [? _]; lia].
  all: assert (E : cube (N.to_nat d) = mkGT (N.to_nat d) false (if (d <? 2)%N then 0 else 2 ^ d - 1)%N);
    [unfold cube, GT3; rewrite to_uchar_small by lia; f_equal; rewrite bit_pow, N2Nat.id; destruct (N.ltb_spec d 2); destruct (Nat.ltb_spec 1 (N.to_nat d)); try lia; reflexivity|].
  all: rewrite E; split; [intro X; injection X as <-; split; [lia|reflexivity]|now intros [_ ->]].
Qed.
Lemma construct_ok i args t : i < 12 -> construct i args = Ok t <-> means (nth i constructorNames []) args t.
Proof.
  intro Hi. split.
  - destruct i as [|[|[|[|[|[|[|[|[|[|[|[|i]]]]]]]]]]]]; [..|lia]; destruct args as [|a [|b [|? ?]]]; cbn [construct]; try discriminate; cbn [nth constructorNames map].
    + destruct (num a) as [v| |] eqn:N; try discriminate. cbn [rbind]. intro H. apply cube_ok in H. destruct H as [H ->]. constructor; [now apply num_ok|exact H].
    + destruct (num a) as [v| |] eqn:N; try discriminate. cbn [rbind]. destruct (num b) as [d| |] eqn:N'; try discriminate. cbn [rbind].
      destruct (N.leb_spec 32 (u32 d)) as [|L]; [discriminate|]. unfold numTopologies. rewrite bit_pow, N2Nat.id. destruct (N.leb_spec (2 ^ u32 d) v) as [|L']; [discriminate|].
      intro H. injection H as <-. unfold GT2. rewrite to_uchar_small by lia.
      rewrite (u32_small v) by (eapply N.lt_le_trans; [exact L'|apply N.pow_le_mono_r; lia]). constructor; [now apply num_ok|now apply num_ok|exact L|exact L'].
    + intro H. injection H as <-. constructor.
    + intro H. injection H as <-. constructor.
    + destruct (num a) as [v| |] eqn:N; try discriminate. cbn [rbind]. intro H. injection H as <-. unfold none, GT3. rewrite uchar_u32. constructor. now apply num_ok.
    + intro H. injection H as <-. constructor.
    + intro H. injection H as <-. constructor.
    + intro H. injection H as <-. constructor.
    + destruct (num a) as [v| |] eqn:N; try discriminate. cbn [rbind]. intro H. injection H as <-. unfold simplex, GT3. rewrite uchar_u32. constructor. now apply num_ok.
    + intro H. injection H as <-. constructor.
    + intro H. injection H as <-. constructor.
    + intro H. injection H as <-. constructor.
  - intro H. remember (nth i constructorNames []) as nm eqn:E. assert (Li := lookup_name i Hi). rewrite <- E in Li.
    destruct H; vm_compute in Li; subst i; clear E Hi; cbn [construct]; try reflexivity.
    + apply num_ok in H. rewrite H. cbn [rbind]. unfold simplex, GT3. now rewrite uchar_u32.
    + apply num_ok in H. rewrite H. cbn [rbind]. unfold none, GT3. now rewrite uchar_u32.
    + apply num_ok in H. rewrite H. cbn [rbind]. apply cube_ok. auto.
    + apply num_ok in H. apply num_ok in H0. rewrite H, H0. cbn [rbind]. change (d mod 2 ^ 32)%N with (u32 d) in *.
      destruct (N.leb_spec 32 (u32 d)); [lia|]. unfold numTopologies. rewrite bit_pow, N2Nat.id. destruct (N.leb_spec (2 ^ u32 d) i0); [lia|].
      unfold GT2. rewrite to_uchar_small by lia. rewrite (u32_small i0) by (eapply N.lt_le_trans; [exact H2|apply N.pow_le_mono_r; lia]). reflexivity.
Qed.
Lemma means_name nm args t : means nm args t -> exists i, i < 12 /\ nm = nth i constructorNames [].
Proof.
  intro H. exists (lookup nm). destruct H; vm_compute; (split; [lia|reflexivity]).
Qed.

(** the parser accepts exactly the language of the grammar, with its meaning *)
Theorem C61_grammar : forall s t, fromString s = Ok t <-> accepts s t.
Proof.
  intros s t. split.
  - intro H. destruct (from_cases s) as [E|(i & Hi & [[E F]|(rest & E & a & EA & NA & F)])]; [congruence| |].
    + exists (nth i constructorNames []). left. split; [exact E|]. apply construct_ok; [exact Hi|congruence].
    + exists (nth i constructorNames []). right. rewrite F in H. destruct a as [cores| |]; try discriminate. cbn [rbind] in H.
      assert (EA' := EA). rewrite E in EA' at 2. apply args_list in EA'; [|discriminate]. destruct EA' as (cs & HL & Ec). cbn [app] in Ec. subst cs.
      exists rest, cores. split; [exact E|]. split; [exact HL|]. now apply construct_ok.
  - intros (name & [[-> HM]|(rest & cores & -> & HL & HM)]).
    + destruct (means_name _ _ _ HM) as (i & Hi & ->). rewrite from_name by exact Hi. now apply construct_ok.
    + destruct (means_name _ _ _ HM) as (i & Hi & ->). rewrite from_call by exact Hi. rewrite (args_of_list rest cores HL); [|discriminate|].
      * cbn [rbind app]. now apply construct_ok.
      * rewrite app_length. cbn [List.length]. lia.
Qed.
Print Assumptions C61_grammar.

Example C61_grammar_example :
  accepts (lit "general( 11 , +004 )x") (mkGT 4 false 11) /\ ~ (exists t, accepts (lit "line()") t) /\ number (lit " -1") (2 ^ 64 - 1).
Proof.
  split; [apply C61_grammar; vm_compute; reflexivity|]. split.
  - intros (t & H). apply C61_grammar in H. vm_compute in H. discriminate.
  - apply C61_number. vm_compute. reflexivity.
Qed.
