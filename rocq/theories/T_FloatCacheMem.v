(** C104, continued: CachedMultiLinearGeometry reads no uninitialised member and no foreign storage, after any history of calls *)
From Coq Require Import PeanoNat NArith ZArith Bool List Lia.
From Flocq Require Import IEEE754.BinarySingleNaN.
From Verif Require Import M_Type M_RefTopo M_RefGeo M_Matrix M_Affine M_Float M_FloatGlobal M_FloatLocal M_FloatVolume M_FloatCache P_Matrix T_Float T_FloatLocal T_FloatMem T_FloatCache.
Import ListNotations.

Section T.
Variables (prec emax : Z).
Context (Hp : FLX.Prec_gt_0 prec) (He : Prec_lt_emax prec emax).
Notation float := (binary_float prec emax).
Notation FVec := (nat -> float).
Notation FMat := (nat -> nat -> float).
Notation veq := (veq prec emax).
Notation meq := (meq prec emax).
Variables (cdim : nat) (tid : N) (mydim : nat).
Hypothesis Hmc : mydim <= cdim.
Notation ceq := (Forall2 (veq cdim)).
(** two objects with corners equal in range, and all other storage arbitrary *)
Variables (jv jv' : FVec) (jm jm' jk jk' j1 j1' j2 j2' : FMat) (vs vs' : list FVec).
Hypothesis HC : ceq vs vs'.
Notation aff := (fk_affine prec emax).
Notation jt := (fk_jt prec emax).
Notation jim := (fk_jit prec emax).
Notation dt := (fk_detInv prec emax).
Notation jc := (fk_jitComputed prec emax).
Notation ic := (fk_intComputed prec emax).
Notation make := (fk_make prec emax Hp He cdim tid mydim jm jk vs).
Notation make' := (fk_make prec emax Hp He cdim tid mydim jm' jk' vs').
Notation intel := (fk_integrationElement prec emax Hp He cdim tid mydim jm jk j1 j2 vs).
Notation intel' := (fk_integrationElement prec emax Hp He cdim tid mydim jm' jk' j1' j2' vs').
Notation vol := (fk_volume prec emax Hp He cdim tid mydim jm jk j1 j2 vs).
Notation vol' := (fk_volume prec emax Hp He cdim tid mydim jm' jk' j1' j2' vs').
Notation jit := (fk_jacobianInverseTransposed prec emax Hp He cdim tid mydim jm jk j1 j2 vs).
Notation jit' := (fk_jacobianInverseTransposed prec emax Hp He cdim tid mydim jm' jk' j1' j2' vs').
Notation call := (fk_call prec emax Hp He cdim tid mydim jm jk j1 j2 vs).
Notation call' := (fk_call prec emax Hp He cdim tid mydim jm' jk' j1' j2' vs').
Notation run := (fk_run prec emax Hp He cdim tid mydim jm jk j1 j2 vs).
Notation run' := (fk_run prec emax Hp He cdim tid mydim jm' jk' j1' j2' vs').
Notation loc := (fk_local prec emax Hp He cdim tid mydim jv jm jk j1 j2 vs).
Notation loc' := (fk_local prec emax Hp He cdim tid mydim jv' jm' jk' j1' j2' vs').

Definition kept (c c' : FCache prec emax) : Prop :=
  aff c = aff c' /\ jc c = jc c' /\ ic c = ic c' /\ (aff c = true -> meq mydim cdim (jt c) (jt c')) /\
  (jc c = true -> meq cdim mydim (jim c) (jim c')) /\ (ic c = true -> dt c = dt c') /\ (jc c = true -> ic c = true).
Lemma make_kept jit0 jit0' d0 d0' : both kept (make jit0 d0) (make' jit0' d0').
Proof.
  unfold fk_make. eapply both_bind; [apply (affine_eq prec emax Hp He cdim tid mydim jk jk' mydim vs vs' jm jm' HC)|]. intros [[b l] J] [[b' l'] J'] (E & _ & M). cbn in *. subst b'.
  repeat split; cbn; auto; discriminate.
Qed.
Lemma int_kept c c' x x' : kept c c' -> veq mydim x x' -> both (fun p q => fst p = fst q /\ kept (snd p) (snd q)) (intel c x) (intel' c' x').
Proof.
  intros K HX. pose proof K as (Ea & Ej & Ei & Mj & Mi & Md & Ji). unfold fk_integrationElement. rewrite <- Ea. destruct (aff c) eqn:Ha.
  - rewrite <- Ei. destruct (ic c) eqn:Hi; cbn [negb obind both fst snd]; [split; [auto|exact K]|].
    rewrite (C104_determinant prec emax Hp He mydim cdim (jt c) (jt c') j1 j2 j1' j2' (Mj eq_refl)). destruct (fsqrtDetAAT _ _ _ _ _ _ (jt c') _ _) as [d|]; [|exact I]. cbn. split; [reflexivity|].
    unfold kept. cbn. repeat split; auto.
  - rewrite (C104_integrationElement prec emax Hp He cdim tid mydim jm jm' jk jk' j1 j1' j2 j2' vs vs' x x' HC HX). destruct (fmlg_integrationElement _ _ _ _ _ _ _ _ _ _ _ _ x') as [d|]; [|exact I]. cbn. split; [reflexivity|exact K].
Qed.
Lemma vol_kept c c' : kept c c' -> both (fun p q => fst p = fst q /\ kept (snd p) (snd q)) (vol c) (vol' c').
Proof.
  intro K. unfold fk_volume. rewrite <- (proj1 K). destruct (aff c) eqn:Ha.
  - eapply both_bind; [apply int_kept; [exact K|intros k _; reflexivity]|]. intros [d c1] [d' c1'] (E & K1). cbn in *. subst d'. auto.
  - unfold fmlg_volume. rewrite (C104_integrationElement prec emax Hp He cdim tid mydim jm jm' jk jk' j1 j1' j2 j2' vs vs' (fcenter prec emax Hp He tid mydim) (fcenter prec emax Hp He tid mydim) HC ltac:(intros k _; reflexivity)).
    destruct (fmlg_integrationElement _ _ _ _ _ _ _ _ _ _ _ _ _) as [d|]; [|exact I]. cbn. auto.
Qed.
Lemma jit_kept c c' x x' : kept c c' -> veq mydim x x' -> both (fun p q => fst (fst p) = fst (fst q) /\ meq cdim mydim (snd (fst p)) (snd (fst q)) /\ kept (snd p) (snd q)) (jit c x) (jit' c' x').
Proof.
  intros K HX. pose proof K as (Ea & Ej & Ei & Mj & Mi & Md & Ji). unfold fk_jacobianInverseTransposed. rewrite <- Ea. destruct (aff c) eqn:Ha.
  - apply both_bind with (R := fun p q => kept p q /\ jc p = true /\ ic p = true).
    + rewrite <- Ej. destruct (jc c) eqn:Hj; cbn [negb both].
      * auto.
      * eapply both_bind; [apply (C104_inverse prec emax Hp He mydim cdim (jt c) (jt c') (jim c) (jim c') j1 j2 j1' j2' Hmc (Mj eq_refl))|]. intros [d J] [d' J'] (E & M). cbn in E, M. subst d'. cbn. unfold kept. cbn. repeat split; auto.
    + intros p q (Kp & Hj & Hi). pose proof Kp as (_ & _ & _ & _ & Mi' & Md' & _). cbn. auto.
  - unfold fmlg_jacobianInverseTransposed.
    apply both_bind with (R := fun p q => fst p = fst q /\ meq cdim mydim (snd p) (snd q)).
    + eapply both_bind; [apply (C104_jacobian prec emax Hp He cdim tid mydim jm jm' jk jk' vs vs' x x' HC HX)|]. intros A A' HA. now apply C104_inverse.
    + intros [d J] [d' J'] (E & M). cbn in *. auto.
Qed.
(** the same call with points equal in range *)
Definition call_eq (q q' : FCall prec emax) : Prop :=
  match q, q' with
  | FIntEl x, FIntEl x' | FJIT x, FJIT x' => veq mydim x x'
  | FVolume, FVolume => True
  | _, _ => False
  end.
Lemma run_kept qs qs' : Forall2 call_eq qs qs' -> forall c c', kept c c' -> both kept (run c qs) (run' c' qs').
Proof.
  induction 1 as [|q q' qs qs' Hq _ IH]; intros c c' K; cbn [fk_run]; [exact K|]. apply both_bind with (R := kept); [|exact IH].
  destruct q as [x| |x], q' as [x'| |x']; try contradiction; cbn [fk_call].
  - pose proof (int_kept c c' x x' K Hq) as B. destruct (intel c x) as [(d, e)|], (intel' c' x') as [(d', e')|]; try contradiction; [|exact I]. apply B.
  - pose proof (vol_kept c c' K) as B. destruct (vol c) as [(d, e)|], (vol' c') as [(d', e')|]; try contradiction; [|exact I]. apply B.
  - pose proof (jit_kept c c' x x' K Hq) as B. destruct (jit c x) as [(d, e)|], (jit' c' x') as [(d', e')|]; try contradiction; [|exact I]. apply B.
Qed.
Lemma loc_kept c c' x0 x0' y y' fuel : kept c c' -> veq mydim x0 x0' -> veq cdim y y' -> loc_eq prec emax mydim (loc fuel x0 c y) (loc' fuel x0' c' y').
Proof.
  intros (Ea & Ej & Ei & Mj & Mi & Md & Ji) HX HY. unfold fk_local. rewrite <- Ea, <- Ej. destruct (aff c) eqn:Ha; [|now apply C104_local].
  destruct HC as [|o o' l l' Ho Hl]; [exact I|]. destruct (jc c).
  - intros j Hj. unfold fmtv. apply forN_ext. intros i s Hi. now rewrite (Mi eq_refl i j), (HY i), (Ho i) by assumption.
  - assert (V : veq cdim (fun k => fsub prec emax Hp He (y k) (o k)) (fun k => fsub prec emax Hp He (y' k) (o' k))) by (intros k Hk; now rewrite (HY k), (Ho k)).
    pose proof (C104_solve prec emax Hp He mydim cdim (jt c) (jt c') _ _ j1 j2 j1' j2' Hmc (Mj eq_refl) V) as S.
    destruct (fxTRightInvA _ _ _ _ _ _ (jt c) _ _ _) as [(b, v)|], (fxTRightInvA _ _ _ _ _ _ (jt c') _ _ _) as [(b', v')|]; try contradiction; [apply S|exact I].
Qed.

(** Two objects built from corners that agree in range, with different contents of the members and locals, and taken through the same history: both fail or both succeed, and then they answer every further call alike. *)
Theorem C104_cached : forall jit0 jit0' d0 d0' qs qs', Forall2 call_eq qs qs' ->
  both (fun c c' => (forall x x', veq mydim x x' -> answer (intel c x) = answer (intel' c' x')) /\ answer (vol c) = answer (vol' c') /\
    (forall x x', veq mydim x x' -> both (fun p q => fst p = fst q /\ meq cdim mydim (snd p) (snd q)) (answer (jit c x)) (answer (jit' c' x'))) /\
    (forall fuel x0 x0' y y', veq mydim x0 x0' -> veq cdim y y' -> loc_eq prec emax mydim (loc fuel x0 c y) (loc' fuel x0' c' y')))
   (obind (make jit0 d0) (fun c => run c qs)) (obind (make' jit0' d0') (fun c => run' c qs')).
Proof.
  intros jit0 jit0' d0 d0' qs qs' HQ. pose proof (both_bind kept kept _ _ (fun c => run c qs) (fun c => run' c qs') (make_kept jit0 jit0' d0 d0') (run_kept qs qs' HQ)) as K.
  destruct (obind (make jit0 d0) _) as [c|], (obind (make' jit0' d0') _) as [c'|]; try contradiction; [|exact I]. cbn [both] in *. split; [|split; [|split]].
  - intros x x' HX. pose proof (int_kept c c' x x' K HX) as B. destruct (intel c x) as [(d, e)|], (intel' c' x') as [(d', e')|]; try contradiction; [|reflexivity]. cbn. f_equal. apply B.
  - pose proof (vol_kept c c' K) as B. destruct (vol c) as [(d, e)|], (vol' c') as [(d', e')|]; try contradiction; [|reflexivity]. cbn. f_equal. apply B.
  - intros x x' HX. pose proof (jit_kept c c' x x' K HX) as B. destruct (jit c x) as [((d, J), e)|], (jit' c' x') as [((d', J'), e')|]; try contradiction; [|exact I]. cbn in *. split; apply B.
  - intros. now apply loc_kept.
Qed.
End T.
Print Assumptions C104_cached.

(** a segment in the plane; members filled with nan and with zeros: both answer 5 *)
Example C104_cached_example :
  let vs := [two (sgl 1 0) (sgl 1 0); two (sgl 4 0) (sgl 5 0)] in let nn := fun _ _ : nat => (B754_nan : binary_float 24 128) in let zz := fun _ _ : nat => sgl 0 0 in
  let ask := fun j d => obind (fk_make 24 128 p24 e128 2 0 1 j j vs j d) (fun c => obind (fk_run 24 128 p24 e128 2 0 1 j j j j vs c [FVolume 24 128; FJIT 24 128 (zz 0)]) (fun c => option_map B2SF (answer (fk_integrationElement 24 128 p24 e128 2 0 1 j j j j vs c (zz 0))))) in
  ask nn B754_nan = Some (B2SF (sgl 5 0)) /\ ask zz (sgl 0 0) = Some (B2SF (sgl 5 0)).
Proof. split; vm_compute; reflexivity. Qed.
