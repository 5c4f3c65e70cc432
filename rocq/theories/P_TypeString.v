(** Lemmas on decimal numbers, searching in strings and the argument loop. *)
From Coq Require Import NArith ZArith PeanoNat Bool List Ascii String Lia.
From Verif Require Import M_Type M_TypeIndex M_TypeString.
Import ListNotations.

(** ** Decimal numbers *)
Definition digits (s : str) : Prop := Forall (fun c => isdigit c = true) s.
Lemma digit_ok n : (n < 10)%N -> isdigit (digit n) = true /\ N_of_ascii (digit n) = (48 + n)%N.
Proof.
  intros H. unfold isdigit, digit. rewrite N_ascii_embedding by lia. split; [|reflexivity].
  apply andb_true_intro. split; apply N.leb_le; lia.
Qed.
Lemma value_snoc s c : value (s ++ [c]) = (10 * value s + (N_of_ascii c - 48))%N.
Proof. unfold value. rewrite fold_left_app. reflexivity. Qed.
Lemma dec_aux_spec f : forall n acc, f <> 0 -> (n < 10 ^ N.of_nat f)%N ->
  exists D, dec_aux f n acc = D ++ acc /\ digits D /\ D <> [] /\ value D = n.
Proof.
  induction f as [|f IH]; intros n acc F H; [now elim F|]. cbn [dec_aux].
  destruct (digit_ok (n mod 10) ltac:(apply N.mod_lt; lia)) as [A B].
  pose proof (N.div_mod n 10 ltac:(lia)) as E.
  destruct (N.eqb_spec (n / 10) 0) as [Z|Z].
  - exists [digit (n mod 10)]. split; [reflexivity|]. split; [constructor; [exact A|constructor]|]. split; [discriminate|].
    unfold value. cbn [fold_left]. rewrite B. lia.
  - assert (H' : (n / 10 < 10 ^ N.of_nat f)%N).
    { apply N.div_lt_upper_bound; [lia|]. rewrite Nat2N.inj_succ, N.pow_succ_r' in H. exact H. }
    destruct (IH (n / 10)%N (digit (n mod 10) :: acc)) as (D & Q & D1 & D2 & D3); [|exact H'|].
    { intros ->. change (10 ^ N.of_nat 0)%N with 1%N in H'. apply Z. now apply N.lt_1_r. }
    exists (D ++ [digit (n mod 10)]). rewrite Q, <- app_assoc. split; [reflexivity|]. split.
    + apply Forall_app. split; [exact D1|constructor; [exact A|constructor]].
    + split; [now destruct D|]. rewrite value_snoc, D3, B. rewrite (N.add_comm 48), N.add_sub. symmetry. exact E.
Qed.
Lemma dec_spec n : digits (dec n) /\ dec n <> [] /\ value (dec n) = n.
Proof.
  unfold dec. destruct (dec_aux_spec (S (N.size_nat n)) n []) as (D & E & H); [discriminate| |].
  - assert (L : (n < 2 ^ N.of_nat (N.size_nat n))%N).
    { destruct n as [|p]; [reflexivity|]. cbn [N.size_nat].
      assert (G : forall p, (Zpos p < 2 ^ Z.of_nat (Pos.size_nat p))%Z).
      { induction p0 as [p0 IH|p0 IH|]; cbn [Pos.size_nat]; [| |reflexivity]; rewrite Nat2Z.inj_succ, Z.pow_succ_r by lia; lia. }
      apply N2Z.inj_lt. rewrite N2Z.inj_pow, nat_N_Z. apply G. }
    eapply N.lt_le_trans; [exact L|]. rewrite Nat2N.inj_succ.
    transitivity (10 ^ N.of_nat (N.size_nat n))%N; [apply N.pow_le_mono_l; lia|apply N.pow_le_mono_r; lia].
  - rewrite app_nil_r in E. rewrite E. exact H.
Qed.
Lemma dec_inj n m : dec n = dec m -> n = m.
Proof. intros E. rewrite <- (proj2 (proj2 (dec_spec n))), E. apply dec_spec. Qed.

Lemma isdigit_cases c : isdigit c = true -> isspace c = false /\ Ascii.eqb c "+" = false /\ Ascii.eqb c "-" = false
  /\ notspace c = true /\ isend c = false /\ isparen c = false.
Proof.
  intros H. destruct c as [a b d e f g h i].
  destruct a, b, d, e, f, g, h, i; cbv in H; try discriminate H; cbv; auto 10.
Qed.
Lemma takewhile_app p s r : Forall (fun c => p c = true) s -> (match r with [] => True | c :: _ => p c = false end) -> takewhile p (s ++ r) = s.
Proof.
  induction 1 as [|c s H F IH]; intros R; cbn [app takewhile].
  - destruct r as [|c r]; [reflexivity|]. cbn [takewhile]. now rewrite R.
  - rewrite H. f_equal. now apply IH.
Qed.
Lemma stoul_digits D : digits D -> D <> [] -> (value D < 2 ^ 64)%N -> stoul D = Some (value D).
Proof.
  intros H N V. unfold stoul. destruct D as [|c D]; [now elim N|]. inversion H; subst. destruct (isdigit_cases c) as (A & B & C & _); [assumption|].
  cbn [dropwhile]. rewrite A, B, C. rewrite <- (app_nil_r (c :: D)) at 1. rewrite takewhile_app by (trivial; exact I).
  destruct (N.leb_spec (2 ^ 64) (value (c :: D))); [lia|reflexivity].
Qed.
Lemma num_dec n : (n < 2 ^ 64)%N -> num (dec n) = Ok n.
Proof. intros H. destruct (dec_spec n) as (A & B & C). unfold num. rewrite stoul_digits by (trivial; now rewrite C). now rewrite C. Qed.

(** ** Searching *)
Lemma ffrom_skip p b c r : forall i, Forall (fun x => p x = false) b -> p c = true -> ffrom p (b ++ c :: r) i = Some (i + List.length b).
Proof.
  induction b as [|x b IH]; intros i H C; cbn [app ffrom List.length].
  - rewrite C. f_equal. lia.
  - inversion H; subst. rewrite H2, IH by assumption. f_equal. lia.
Qed.
Lemma skipn_len {A} (a b : list A) n : List.length a = n -> skipn n (a ++ b) = b.
Proof. intros <-. rewrite skipn_app, Nat.sub_diag, skipn_all. reflexivity. Qed.
Lemma find_first_at p a b c r n : List.length a = n -> Forall (fun x => p x = false) b -> p c = true ->
  find_first p (a ++ b ++ c :: r) n = Some (n + List.length b).
Proof. intros L H C. unfold find_first. rewrite skipn_len by exact L. now apply ffrom_skip. Qed.

Lemma ffrom_some p s : forall i k, ffrom p s i = Some k -> i <= k < i + List.length s /\ exists c, nth_error s (k - i) = Some c /\ p c = true.
Proof.
  induction s as [|c s IH]; intros i k H; cbn [ffrom] in H; [discriminate|]. destruct (p c) eqn:P.
  - injection H as <-. cbn [List.length]. split; [lia|]. exists c. rewrite Nat.sub_diag. auto.
  - apply IH in H. destruct H as (H1 & c' & H2 & H3). cbn [List.length]. split; [lia|]. exists c'. replace (k - i) with (S (k - S i)) by lia. auto.
Qed.
Lemma nth_error_skipn {A} (s : list A) n k : nth_error (skipn n s) k = nth_error s (n + k).
Proof. revert s. induction n as [|n IH]; intros [|x s]; cbn; try reflexivity; [now destruct k|apply IH]. Qed.
Lemma find_first_some p s n k : find_first p s n = Some k -> n <= k < List.length s /\ exists c, nth_error s k = Some c /\ p c = true.
Proof.
  unfold find_first. intros H. apply ffrom_some in H. destruct H as (H & c & E & P). rewrite nth_error_skipn in E.
  replace (n + (k - n)) with k in E by lia. split; [split; [lia|]|exists c; auto]. apply nth_error_Some. congruence.
Qed.
Lemma find_last_some p s m c : nth_error s m = Some c -> p c = true -> forall n, m <= n -> exists k, find_last p s n = Some k /\ m <= k <= n.
Proof.
  intros E P. induction n as [|n IH]; intros H.
  - replace m with 0 in * by lia. cbn [find_last]. rewrite E, P. exists 0. auto.
  - cbn [find_last]. destruct (Nat.eq_dec m (S n)) as [->|N]; [rewrite E, P; exists (S n); auto|].
    destruct (IH ltac:(lia)) as (k & K1 & K2). destruct (nth_error s (S n)) as [x|]; [destruct (p x)|]; [exists (S n)|exists k|exists k]; (split; [auto|lia]).
Qed.

(** ** The argument loop *)
(** one argument *)
Lemma argsLoop_step f a c sp D e r args : c <> ")"%char ->
  Forall (fun x => notspace x = false) sp -> D <> [] -> Forall (fun x => notspace x = true /\ isend x = false) D -> isend e = true ->
  argsLoop (S f) (a ++ c :: sp ++ D ++ e :: r) (List.length a) args
  = argsLoop f (a ++ c :: sp ++ D ++ e :: r) (List.length a + 1 + List.length sp + List.length D) (args ++ [D]).
Proof.
  intros C Sp Dn Df E. set (s := a ++ c :: sp ++ D ++ e :: r). cbn [argsLoop].
  assert (Ca : char_at s (List.length a) = Some c).
  { unfold char_at, s. rewrite nth_error_app2, Nat.sub_diag by lia. reflexivity. }
  rewrite Ca. destruct (Ascii.eqb_spec c ")") as [X|_]; [contradiction|].
  destruct D as [|d D]; [now elim Dn|]. assert (Dd : notspace d = true /\ isend d = false) by now inversion Df.
  assert (F1 : find_first notspace s (List.length a + 1) = Some (List.length a + 1 + List.length sp)).
  { unfold s. replace (a ++ c :: sp ++ (d :: D) ++ e :: r) with ((a ++ [c]) ++ sp ++ d :: (D ++ e :: r)) by (rewrite <- app_assoc; reflexivity).
    apply find_first_at; [rewrite app_length; reflexivity|exact Sp|apply Dd]. }
  rewrite F1. set (m := List.length a + 1 + List.length sp).
  assert (F2 : find_first isend s m = Some (m + List.length (d :: D))).
  { unfold s. replace (a ++ c :: sp ++ (d :: D) ++ e :: r) with ((a ++ [c] ++ sp) ++ (d :: D) ++ e :: r) by (rewrite <- !app_assoc; reflexivity).
    apply find_first_at; [unfold m; rewrite !app_length; cbn [List.length]; lia| |exact E].
    eapply Forall_impl; [|exact Df]. now intros x []. }
  rewrite F2. destruct (Nat.eqb_spec (m + List.length (d :: D)) m) as [X|_]; [cbn [List.length] in X; lia|].
  assert (F3 : find_last notspace s (m + List.length (d :: D) - 1) = Some (m + List.length (d :: D) - 1)).
  { destruct (@exists_last _ (d :: D) ltac:(discriminate)) as (D' & z & Ez). rewrite Ez in *.
    assert (Zz : notspace z = true). { apply Forall_app in Df. destruct Df as [_ Df]. inversion Df; subst. now destruct H1. }
    rewrite app_length. cbn [List.length]. replace (m + (List.length D' + 1) - 1) with (m + List.length D') by lia.
    assert (Nz : nth_error s (m + List.length D') = Some z).
    { unfold s, m. rewrite Ez. replace (a ++ c :: sp ++ (D' ++ [z]) ++ e :: r) with ((a ++ [c] ++ sp ++ D') ++ z :: e :: r) by (repeat (rewrite <- app_assoc; cbn [app]); reflexivity).
      rewrite nth_error_app2; rewrite !app_length; cbn [List.length]; [|lia]. replace (_ - _) with 0 by lia. reflexivity. }
    destruct (m + List.length D'); cbn [find_last]; rewrite Nz, Zz; reflexivity. }
  rewrite F3. destruct (Nat.ltb_spec (m + List.length (d :: D) - 1) m) as [X|_]; [cbn [List.length] in X; lia|].
  f_equal. f_equal. f_equal. unfold substr. replace (m + List.length (d :: D) - 1 - m + 1) with (List.length (d :: D)) by (cbn [List.length]; lia).
  unfold s, m. replace (a ++ c :: sp ++ (d :: D) ++ e :: r) with ((a ++ [c] ++ sp) ++ (d :: D) ++ e :: r) by (rewrite <- !app_assoc; reflexivity).
  rewrite skipn_len by (rewrite !app_length; cbn [List.length]; lia). rewrite firstn_app, Nat.sub_diag, firstn_all. cbn [firstn]. apply app_nil_r.
Qed.
Lemma argsLoop_end f a r args : argsLoop (S f) (a ++ ")"%char :: r) (List.length a) args = Ok args.
Proof. cbn [argsLoop]. unfold char_at. rewrite nth_error_app2, Nat.sub_diag by lia. reflexivity. Qed.

Lemma digits_arg D : digits D -> Forall (fun x => notspace x = true /\ isend x = false) D.
Proof. intros H. eapply Forall_impl; [|exact H]. intros c X. apply isdigit_cases in X. tauto. Qed.

(** the loop never leaves the string, and ends *)
Lemma argsLoop_total s : forall fuel n args, n < List.length s -> List.length s - n < fuel -> argsLoop fuel s n args <> Undef.
Proof.
  induction fuel as [|f IH]; intros n args Hn Hf; [lia|]. cbn [argsLoop].
  unfold char_at. destruct (nth_error s n) as [c|] eqn:E; [|apply nth_error_None in E; lia].
  destruct (Ascii.eqb c ")"); [discriminate|].
  destruct (find_first notspace s (n + 1)) as [m|] eqn:F; [|discriminate]. apply find_first_some in F. destruct F as (Fm & cm & Ecm & Pm).
  destruct (find_first isend s m) as [n'|] eqn:G; [|discriminate]. apply find_first_some in G. destruct G as (Gn & _).
  destruct (Nat.eqb_spec n' m) as [X|X]; [discriminate|].
  destruct (find_last_some notspace s m cm Ecm Pm (n' - 1) ltac:(lia)) as (k & -> & K).
  destruct (Nat.ltb_spec k m); [lia|]. apply IH; lia.
Qed.

(** names *)
Lemma str_eqb_eq a : forall b, str_eqb a b = true <-> a = b.
Proof.
  induction a as [|x a IH]; intros [|y b]; cbn [str_eqb]; try (split; [discriminate|discriminate]); [split; reflexivity|].
  rewrite andb_true_iff, Ascii.eqb_eq, IH. split; [intros [-> ->]; reflexivity|intros E; injection E as -> ->; auto].
Qed.
Definition lookup (v : str) : nat := lower_bound (S (List.length constructorNames)) constructorNames 0 (List.length constructorNames) v.
Lemma lookup_name i : i < 12 -> lookup (nth i constructorNames []) = i.
Proof. intros H. do 12 (destruct i as [|i]; [vm_compute; reflexivity|]). lia. Qed.

Definition noparen (s : str) : Prop := Forall (fun c => isparen c = false) s.
Lemma names_noparen i : noparen (nth i constructorNames []).
Proof.
  assert (G : Forall noparen constructorNames) by (unfold noparen; repeat (constructor; [repeat (constructor; [reflexivity|]); constructor|]); constructor).
  destruct (Nat.lt_ge_cases i (List.length constructorNames)) as [H|H].
  - rewrite Forall_forall in G. apply G. now apply nth_In.
  - rewrite nth_overflow by exact H. constructor.
Qed.
Lemma ffrom_none p s : forall i, Forall (fun x => p x = false) s -> ffrom p s i = None.
Proof. induction s as [|c s IH]; intros i H; [reflexivity|]. inversion H; subst. cbn [ffrom]. rewrite H2. now apply IH. Qed.

(** a name without arguments, and a name with an argument list *)
Lemma from_name i : i < 12 -> fromString (nth i constructorNames []) = construct i [].
Proof.
  intros H. unfold fromString, find_first. cbn [skipn]. rewrite ffrom_none by apply names_noparen.
  fold (lookup (nth i constructorNames [])). rewrite lookup_name by exact H.
  destruct (Nat.eqb_spec i (List.length constructorNames)) as [X|_]; [change (List.length constructorNames) with 12 in X; lia|].
  rewrite (proj2 (str_eqb_eq _ _) eq_refl). reflexivity.
Qed.
Lemma from_call i rest : i < 12 ->
  fromString (nth i constructorNames [] ++ "("%char :: rest)
  = rbind (argsLoop (S (List.length (nth i constructorNames [] ++ "("%char :: rest))) (nth i constructorNames [] ++ "("%char :: rest)
             (List.length (nth i constructorNames [])) []) (construct i).
Proof.
  intros H. set (nm := nth i constructorNames []). set (s := nm ++ "("%char :: rest). unfold fromString.
  assert (F : find_first isparen s 0 = Some (List.length nm)).
  { unfold s. change (nm ++ "("%char :: rest) with ([] ++ nm ++ "("%char :: rest). apply find_first_at; [reflexivity|apply names_noparen|reflexivity]. }
  rewrite F. assert (Sn : substr s 0 (List.length nm) = nm).
  { unfold substr, s. cbn [skipn]. rewrite firstn_app, Nat.sub_diag, firstn_all. cbn [firstn]. apply app_nil_r. }
  rewrite Sn. fold (lookup nm). assert (Lk : lookup nm = i) by (now apply lookup_name). rewrite Lk. fold nm.
  destruct (Nat.eqb_spec i (List.length constructorNames)) as [X|_]; [change (List.length constructorNames) with 12 in X; lia|].
  rewrite (proj2 (str_eqb_eq nm nm) eq_refl). reflexivity.
Qed.
(** one number, whatever follows the parenthesis *)
Lemma from_call1 i D r : i < 12 -> digits D -> D <> [] -> fromString (nth i constructorNames [] ++ lit "(" ++ D ++ lit ")" ++ r) = construct i [D].
Proof.
  intros H Dd Dn. cbn [lit list_ascii_of_string app]. rewrite from_call by exact H.
  set (nm := nth i constructorNames []). pose proof (argsLoop_step (List.length (nm ++ "("%char :: D ++ ")"%char :: r)) nm "("%char [] D ")"%char r []) as S1.
  cbn [app] in S1. rewrite S1; [|discriminate|constructor|exact Dn|now apply digits_arg|reflexivity]. cbn [List.length]. rewrite Nat.add_0_r.
  replace (nm ++ "("%char :: D ++ ")"%char :: r) with ((nm ++ "("%char :: D) ++ ")"%char :: r) by (rewrite <- app_assoc; reflexivity).
  replace (List.length nm + 1 + List.length D) with (List.length (nm ++ "("%char :: D)) by (rewrite app_length; cbn [List.length]; lia).
  rewrite (app_length (nm ++ _)). cbn [List.length]. rewrite Nat.add_succ_r. rewrite argsLoop_end. reflexivity.
Qed.
Lemma from_call2 i D1 D2 r : i < 12 -> digits D1 -> D1 <> [] -> digits D2 -> D2 <> [] ->
  fromString (nth i constructorNames [] ++ lit "(" ++ D1 ++ lit ", " ++ D2 ++ lit ")" ++ r) = construct i [D1; D2].
Proof.
  intros H Dd1 Dn1 Dd2 Dn2. cbn [lit list_ascii_of_string app]. rewrite from_call by exact H.
  set (nm := nth i constructorNames []). set (L := List.length _).
  pose proof (argsLoop_step L nm "("%char [] D1 ","%char (" "%char :: D2 ++ ")"%char :: r) []) as S1.
  cbn [app] in S1. rewrite S1; [|discriminate|constructor|exact Dn1|now apply digits_arg|reflexivity]. clear S1. cbn [List.length]. rewrite Nat.add_0_r.
  assert (HL : exists L', L = S (S L')).
  { unfold L. rewrite app_length. cbn [List.length]. rewrite app_length. cbn [List.length]. rewrite !Nat.add_succ_r. eexists. reflexivity. }
  destruct HL as (L' & ->).
  replace (nm ++ "("%char :: D1 ++ ","%char :: " "%char :: D2 ++ ")"%char :: r)
    with ((nm ++ "("%char :: D1) ++ ","%char :: [" "%char] ++ D2 ++ ")"%char :: r) by (rewrite <- app_assoc; reflexivity).
  replace (List.length nm + 1 + List.length D1) with (List.length (nm ++ "("%char :: D1)) by (rewrite app_length; cbn [List.length]; lia).
  rewrite argsLoop_step; [|discriminate|constructor; [reflexivity|constructor]|exact Dn2|now apply digits_arg|reflexivity].
  set (a := nm ++ "("%char :: D1). cbn [app].
  replace (a ++ ","%char :: " "%char :: D2 ++ ")"%char :: r) with ((a ++ ","%char :: " "%char :: D2) ++ ")"%char :: r) by (rewrite <- app_assoc; reflexivity).
  replace (List.length a + 1 + List.length [" "%char] + List.length D2) with (List.length (a ++ ","%char :: " "%char :: D2)) by (rewrite app_length; cbn [List.length]; lia).
  rewrite argsLoop_end. reflexivity.
Qed.
