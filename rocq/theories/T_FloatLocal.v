(** * C70  The inverse mappings in IEEE arithmetic *)
From Coq Require Import PeanoNat NArith ZArith Bool List Reals Lra Lia.
From Flocq Require Import Core IEEE754.BinarySingleNaN.
From Verif Require Import M_Type M_RefTopo M_RefGeo M_Matrix M_Affine M_MultiLinear M_GaussNewton M_Float M_FloatGlobal M_FloatLocal S_Topo S_RefGeo S_Matrix S_MultiLinear S_FloatLocal
  P_Type P_RefTopo P_RefTopo3 P_RSum P_RefGeo P_RefGeo2 P_RefGeo3 P_RefGeo4 P_ML1 P_ML2 P_ML3 P_ML4 P_Float P_FloatRef P_FloatGlobal P_FloatLocal P_FloatLocal2 P_FloatLocal3 T_RefGeo T_Float T_FloatGlobal.
Import ListNotations.
Local Open Scope R_scope.

Section C70.
Variables (prec emax : Z).
Context (Hp : Prec_gt_0 prec) (He : Prec_lt_emax prec emax).
Notation float := (binary_float prec emax).
Notation FVec := (nat -> float).
Notation FMat := (nat -> nat -> float).
Notation u := (bpow radix2 (- prec)).
Notation nan := (@B754_nan prec emax).
Notation sub := (fsub prec emax Hp He).

Section ML.
Variables (cdim : nat) (id : N) (dim : nat).
(** the contents of all uninitialised locals, and the corners *)
Variables (jv : FVec) (jm jk j1 j2 : FMat) (corners : list FVec).
Hypothesis HL : length corners = size id dim dim.
Notation local := (fmlg_local prec emax Hp He cdim id dim jv jm jk j1 j2 corners).
Notation affine := (fmlg_affine prec emax Hp He cdim id dim jm jk corners).
Notation step := (fml_step prec emax Hp He cdim id dim jv jm jk j1 j2 corners).
Notation global := (fmlg_global prec emax Hp He cdim id dim jv corners).
Notation goon := (fun dx => Bltb (ftol prec emax Hp He) (fnorm2 prec emax Hp He dim dx)).

Lemma HL' : length corners = nv (lt id dim).
Proof. now rewrite HL, size_lt. Qed.
Lemma affine_some : exists b, affine = Some b.
Proof.
  unfold fmlg_affine. destruct (affine_total prec emax Hp He cdim id dim jk dim corners jm (le_n _) ltac:(rewrite HL'; lia)) as (ok & c & m & -> & _).
  exists ok. reflexivity.
Qed.

(** No assertion fails and no corner is missing, whatever the coordinates are; an affine mapping
    is inverted in one iteration. *)
Theorem C70_defined : (forall fuel x0 y, local fuel x0 y <> NwUndefined prec emax) /\ exists b, affine = Some b /\
  (b = true -> forall fuel x0 y, local (S fuel) x0 y <> NwLoop prec emax).
Proof.
  destruct affine_some as (b & E). split.
  - intros. unfold fmlg_local. rewrite E. apply newton_defined, HL'.
  - exists b. split; [exact E|]. intros ->. intros. unfold fmlg_local. rewrite E. cbn [fml_newton].
    destruct (step y x0) as [[[] dx]|]; discriminate.
Qed.

(** What a non-affine mapping returns: the point one more update behind a state whose update is
    not above the tolerance, all updates before being above it; a mapping is declared singular
    exactly at a state of the same sequence; the outcome does not depend on the fuel. *)
Theorem C70_result : affine = Some false -> forall fuel x0 y,
  (forall z, local fuel x0 y = NwPt prec emax z ->
     exists n x dx, (n < fuel)%nat /\ orbit prec emax Hp He (step y) goon n x0 x /\ step y x = Some (true, dx) /\ goon dx = false /\
       z = (fun k => sub (x k) (dx k))) /\
  (local fuel x0 y = NwMax prec emax ->
     exists n x dx, (n < fuel)%nat /\ orbit prec emax Hp He (step y) goon n x0 x /\ step y x = Some (false, dx)) /\
  (local fuel x0 y = NwLoop prec emax -> exists z, orbit prec emax Hp He (step y) goon fuel x0 z) /\
  (local fuel x0 y <> NwLoop prec emax -> forall fuel', (fuel <= fuel')%nat -> local fuel' x0 y = local fuel x0 y).
Proof.
  intros E fuel x0 y. unfold fmlg_local. rewrite E. repeat split.
  - intros z. apply newton_result.
  - apply newton_max.
  - apply newton_loop.
  - intros H fuel' L. now apply newton_more.
Qed.

(** A NaN in the global coordinate or in a corner ends the iteration at once, with the return
    value for singular Jacobians or with a point all of whose coordinates are NaN. *)
Theorem C70_nan : (0 < dim)%nat -> forall x0 y k, (k < cdim)%nat -> y k = nan \/ (exists c, In c corners /\ c k = nan) ->
  forall fuel, local (S fuel) x0 y = NwMax prec emax \/
  exists z, local (S fuel) x0 y = NwPt prec emax z /\ forall i, (i < dim)%nat -> z i = nan.
Proof.
  intros Hd x0 y k Hk H fuel. destruct affine_some as (b & E). unfold fmlg_local. rewrite E.
  assert (G : exists gx, global x0 = Some gx /\ sub (gx k) (y k) = nan).
  { destruct H as [H|(c & Hc & H)].
    - destruct (global_total prec emax Hp He cdim id dim jv corners HL' x0) as (gx & G). exists gx. split; [exact G|]. rewrite H. apply sub_nan_r.
    - destruct (global_nan prec emax Hp He cdim id dim jv corners HL' x0 c k Hk Hc H) as (gx & G & N). exists gx. split; [exact G|]. rewrite N. apply sub_nan_l. }
  destruct G as (gx & G & N). exact (newton_nan prec emax Hp He cdim id dim jv jm jk j1 j2 corners HL' fuel b y x0 gx k Hd Hk G N).
Qed.

(** If the start is mapped to the given coordinate up to signs of zeros, it is returned
    unchanged up to signs of zeros or NaNs. *)
Theorem C70_zero : (6 <= prec)%Z -> forall x0 y gx, global x0 = Some gx ->
  (forall k, (k < cdim)%nat -> exists s, sub (gx k) (y k) = B754_zero s) ->
  forall fuel, local (S fuel) x0 y = NwMax prec emax \/
  exists z, local (S fuel) x0 y = NwPt prec emax z /\
    forall i, (i < dim)%nat -> z i = nan \/ (is_finite (z i) = is_finite (x0 i) /\ B2R (z i) = B2R (x0 i)).
Proof.
  intros H6 x0 y gx G Z fuel. destruct affine_some as (b & E). unfold fmlg_local. rewrite E.
  apply (newton_zero prec emax Hp He cdim id dim jv jm jk j1 j2 corners HL' fuel b y x0 gx H6 G). intros k Hk. right. now apply Z.
Qed.
End ML.
Print Assumptions C70_defined.
Print Assumptions C70_result.
Print Assumptions C70_nan.
Print Assumptions C70_zero.

(** The start of the iteration is the mean of the corners of the reference element up to three
    units in the last place, and exactly if their number is a power of two. *)
Theorem C70_center : (2 <= prec)%Z -> (prec + 2 <= emax)%Z -> forall id dim k, (0 < dim)%nat ->
  INR (size id dim dim) <= bpow radix2 prec ->
  let c := Ssum (size id dim dim) (fun j => nth j (referenceCorners id dim) vzero k) / INR (size id dim dim) in
  let v := fcenter prec emax Hp He id dim k in
  is_finite v = true /\ Bsign v = false /\ Rabs (B2R v - c) <= 3 * u * c /\ ((exists j, size id dim dim = Nat.pow 2 j) -> B2R v = c).
Proof.
  intros H2 Hem id dim k Hd. rewrite <- (C16_corner_count id dim). intros HN.
  destruct (center_spec prec emax Hp He H2 id dim k Hd Hem HN) as (v & (F & S & V) & B & X). cbv zeta. rewrite V. auto.
Qed.
Print Assumptions C70_center.

(** ** gaussNewton *)
Section GN.
Variables (mydim cdim : nat) (j1 j2 : FMat) (f : FVec -> option FVec) (df : FVec -> option FMat) (y : FVec) (o : FGNOpts prec emax).
Notation gn := (fgaussNewton prec emax Hp He mydim cdim j1 j2 f df y o).
Notation res := (fresidual prec emax Hp He cdim f y).
Notation descent := (fdescent prec emax Hp He mydim cdim j1 j2 f df y (fgn_theta prec emax o) (Z.to_nat (fgn_maxInnerIt prec emax o))).
Notation tol := (fgn_absTol prec emax o).
Hypothesis Hout : (0 < fgn_maxIt prec emax o)%Z.
Hypothesis Hinn : (0 < fgn_maxInnerIt prec emax o)%Z.

Lemma gn_spec x0 c z : gn x0 = Some (c, z) -> (exists r, res x0 r) /\
  exists m, (m <= Z.to_nat (fgn_maxIt prec emax o))%nat /\ descent m x0 z /\
    ffinal prec emax Hp He mydim cdim j1 j2 f df y o (Z.to_nat (fgn_maxIt prec emax o)) m c z.
Proof.
  unfold fgaussNewton. destruct (f x0) as [fx|] eqn:E; [|discriminate]. cbn [obind]. intro H. split.
  - eexists. exists fx. split; [exact E|reflexivity].
  - apply (floop_spec prec emax Hp He mydim cdim j1 j2 f df y o) in H; [exact H|lia|exact E|lia].
Qed.

(** Every code means the following in computed numbers: the point left in x0 is reached by
    accepted line searches, each of which takes the first step length with a smaller residual. *)
Theorem C70_gn_contract : forall x0 c z, gn x0 = Some (c, z) ->
  exists m, (m <= Z.to_nat (fgn_maxIt prec emax o))%nat /\ descent m x0 z /\
  match c with
  | GN_OK => (0 < m)%nat /\ exists r, res z r /\ Bltb r tol = true
  | GN_JACOBIAN_NOT_INVERTIBLE => (m < Z.to_nat (fgn_maxIt prec emax o))%nat /\ exists fz J d, f z = Some fz /\ df z = Some J /\
      fxTRightInvA prec emax Hp He mydim cdim J (fun k => sub (fz k) (y k)) j1 j2 = Some (false, d)
  | GN_STAGNATION => (m < Z.to_nat (fgn_maxIt prec emax o))%nat /\ exists dx, fdirection prec emax Hp He mydim cdim j1 j2 f df y z dx /\
      forall i, (i < Z.to_nat (fgn_maxInnerIt prec emax o))%nat -> fno_gain prec emax Hp He cdim f y (fgn_theta prec emax o) z dx i
  | GN_TOLERANCE_NOT_REACHED => m = Z.to_nat (fgn_maxIt prec emax o) /\ exists r, res z r /\ Bltb r tol = false
  end.
Proof.
  intros x0 c z H. destruct (gn_spec x0 c z H) as (_ & m & M & D & F). exists m. split; [exact M|split; [exact D|]].
  destruct c; try exact F. destruct F as ([F|F] & r); [lia|auto].
Qed.

(** Whatever happens, the computed residual is not worse than at the start, and it is smaller
    as soon as x0 has been changed. *)
Theorem C70_gn_never_worse : forall x0 c z, gn x0 = Some (c, z) -> exists r0 r, res x0 r0 /\ res z r /\ (z = x0 \/ Bltb r r0 = true) /\
  (c = GN_OK -> Bltb r r0 = true /\ Bltb r tol = true).
Proof.
  intros x0 c z H. destruct (gn_spec x0 c z H) as ((r0 & R0) & m & M & D & F).
  destruct (fdescent_defined prec emax Hp He mydim cdim j1 j2 f df y o m x0 z D (ex_intro _ r0 R0)) as (r & Rz). exists r0, r.
  split; [exact R0|]. split; [exact Rz|].
  assert (K : (0 < m)%nat -> Bltb r r0 = true) by (intro P; exact (fdescent_lt prec emax Hp He mydim cdim j1 j2 f df y o m x0 z r0 r P D R0 Rz)).
  split.
  - destruct m; [left; now inversion D|right; apply K; lia].
  - intros ->. destruct F as ([F|F] & r' & R' & L); [lia|]. split; [now apply K|]. now rewrite (fres_unique prec emax Hp He cdim f y _ _ _ Rz R').
Qed.

(** It always returns if the mapping and its derivative do. *)
Theorem C70_gn_total : (forall x, f x <> None) -> (forall x, df x <> None) -> forall x0, exists c z, gn x0 = Some (c, z).
Proof.
  intros Ft Dt x0. unfold fgaussNewton. assert (Q := Ft x0). destruct (f x0) as [fx|]; [|congruence]. cbn [obind].
  match goal with |- exists c z, ?g = _ => assert (T : g <> None) by (apply (floop_total prec emax Hp He mydim cdim j1 j2 f df y o Ft Dt)); destruct g as [[c z]|] eqn:E; [eauto|congruence] end.
Qed.

(** If the residual at the start is NaN, the start is kept and the code is that of a singular
    Jacobian or of a failed line search. *)
Theorem C70_gn_nan : forall x0 c z, gn x0 = Some (c, z) -> res x0 nan -> z = x0 /\ (c = GN_JACOBIAN_NOT_INVERTIBLE \/ c = GN_STAGNATION).
Proof.
  intros x0 c z H R0. destruct (gn_spec x0 c z H) as (_ & m & M & D & F).
  assert (M0 : m = 0%nat).
  { destruct m; [reflexivity|]. inversion D as [|? ? x' ? A]; subst. destruct A as (dx & j & a & b & _ & _ & _ & Ra & _ & L & _).
    rewrite <- (fres_unique prec emax Hp He cdim f y _ _ _ R0 Ra), ltb_nan_r in L. discriminate. }
  subst m. split; [now inversion D|]. destruct c; auto; exfalso.
  - destruct F as ([F|F] & _); lia.
  - destruct F as (F & _). lia.
Qed.

(** A start that is mapped exactly to the given coordinate is never accepted. *)
Theorem C70_gn_exact : forall x0 c z s, gn x0 = Some (c, z) -> res x0 (B754_zero s) -> z = x0 /\ (c = GN_JACOBIAN_NOT_INVERTIBLE \/ c = GN_STAGNATION).
Proof.
  intros x0 c z s H R0. destruct (gn_spec x0 c z H) as (_ & m & M & D & F).
  assert (SQ : forall a, Bltb (fsqrt prec emax Hp He a) (B754_zero s) = false).
  { intros a. pose proof (Bsqrt_correct prec emax Hp He mode_NE a) as (V & Fi & _). unfold fsqrt.
    destruct a as [t|t| |t ma ea Ba]; try reflexivity; [destruct t; reflexivity|]. destruct t; [reflexivity|].
    rewrite Bltb_correct by (try exact Fi; reflexivity). rewrite V. cbn [B2R]. apply Rlt_bool_false.
    apply rnd_nn; [assumption|]. apply sqrt_pos. }
  assert (M0 : m = 0%nat).
  { destruct m; [reflexivity|]. inversion D as [|? ? x' ? A]; subst. destruct A as (dx & j & a & b & _ & _ & _ & Ra & Rb & L & _).
    rewrite <- (fres_unique prec emax Hp He cdim f y _ _ _ R0 Ra) in L. destruct Rb as (fb & _ & ->). unfold ftwo_norm in L. rewrite SQ in L. discriminate. }
  subst m. split; [now inversion D|]. destruct c; auto; exfalso.
  - destruct F as ([F|F] & _); lia.
  - destruct F as (F & _). lia.
Qed.
End GN.
Print Assumptions C70_gn_contract.
Print Assumptions C70_gn_never_worse.
Print Assumptions C70_gn_total.
Print Assumptions C70_gn_nan.
Print Assumptions C70_gn_exact.
End C70.

(** ** counterexamples *)
Definition two {A} (a b : A) : nat -> A := fun k => match k with O => a | _ => b end.
(** the bilinear mapping of a quadrilateral in real numbers *)
Definition bilinear (c : list Vec) (x : Vec) : Vec := fun k =>
  (1 - x 0%nat) * (1 - x 1%nat) * nth 0 c vzero k + x 0%nat * (1 - x 1%nat) * nth 1 c vzero k
  + (1 - x 0%nat) * x 1%nat * nth 2 c vzero k + x 0%nat * x 1%nat * nth 3 c vzero k.
Definition rvec {prec emax} (x : nat -> binary_float prec emax) : Vec := fun k => B2R (x k).

Section Cyc.
Variables (prec emax : Z).
Context (Hp : Prec_gt_0 prec) (He : Prec_lt_emax prec emax).
Notation FVec := (nat -> binary_float prec emax).
Variables (jv : FVec) (jm jk j1 j2 : nat -> FVec) (corners : list FVec) (y : FVec).
(** one iteration as raw data *)
Definition obs (s : FVec) : option (bool * SpecFloat.spec_float * SpecFloat.spec_float * bool) :=
  option_map (fun '(b, dx) => (b, B2SF (fsub prec emax Hp He (s 0%nat) (dx 0%nat)), B2SF (fsub prec emax Hp He (s 1%nat) (dx 1%nat)),
      Bltb (ftol prec emax Hp He) (fnorm2 prec emax Hp He 2 dx)))
    (fml_step prec emax Hp He 2 3 2 jv jm jk j1 j2 corners y s).
Definition goes (s s' : FVec) : Prop := obs s = Some (true, B2SF (s' 0%nat), B2SF (s' 1%nat), true).
Lemma cycle : forall s0 s1 s2 s3, goes s0 s1 -> goes s1 s2 -> goes s2 s3 -> goes s3 s2 ->
  forall x0, x0 0%nat = s0 0%nat -> x0 1%nat = s0 1%nat ->
  forall fuel, fml_newton prec emax Hp He 2 3 2 jv jm jk j1 j2 corners fuel false y x0 = NwLoop prec emax.
Proof.
  intros s0 s1 s2 s3 G0 G1 G2 G3 x0 E0 E1 fuel.
  apply (newton_cycle prec emax Hp He 2 3 2 jv jm jk j1 j2 corners y [s0; s1; s2; s3]) with (s := s0).
  - assert (K : forall s s', goes s s' -> In s' [s0; s1; s2; s3] -> exists dx s', fml_step prec emax Hp He 2 3 2 jv jm jk j1 j2 corners y s = Some (true, dx) /\
      Bltb (ftol prec emax Hp He) (fnorm2 prec emax Hp He 2 dx) = true /\ In s' [s0; s1; s2; s3] /\
      forall k, (k < 2)%nat -> fsub prec emax Hp He (s k) (dx k) = s' k).
    { intros s s' G I. unfold goes, obs in G. destruct (fml_step _ _ _ _ _ _ _ _ _ _ _ _ _ _ _) as [[b dx]|]; [|discriminate].
      cbn [option_map] in G. injection G as Eb A B C. subst b. exists dx, s'. split; [reflexivity|]. split; [exact C|]. split; [exact I|].
      intros [|[|k]] Hk; [apply B2SF_inj, A|apply B2SF_inj, B|lia]. }
    intros s Hs. cbn [In] in Hs. destruct Hs as [<-|[<-|[<-|[<-|[]]]]].
    + apply (K s0 s1 G0). cbn [In]. auto.
    + apply (K s1 s2 G1). cbn [In]. auto.
    + apply (K s2 s3 G2). cbn [In]. auto.
    + apply (K s3 s2 G3). cbn [In]. auto.
  - now left.
  - intros [|[|k]] Hk; [exact E0|exact E1|lia].
Qed.
End Cyc.

Lemma sf_value : forall prec emax (x : binary_float prec emax) m e, B2SF x = SpecFloat.S754_finite false m e -> B2R x = IZR (Z.pos m) * bpow radix2 e.
Proof. intros prec emax [s|s| |s m' e' p] m e E; try discriminate E. injection E as -> -> ->. reflexivity. Qed.
Lemma local_false prec emax Hp He cdim id dim jv jm jk j1 j2 corners fuel x0 y : fmlg_affine prec emax Hp He cdim id dim jm jk corners = Some false ->
  fmlg_local prec emax Hp He cdim id dim jv jm jk j1 j2 corners fuel x0 y = fml_newton prec emax Hp He cdim id dim jv jm jk j1 j2 corners fuel false y x0.
Proof. intro E. unfold fmlg_local. now rewrite E. Qed.

(** In double precision there is a trapezoid of size 2 at the distance 2^28 of the origin, and a
    point x of the reference square whose image y has no rounding error, such that local(y) never
    returns: the iteration alternates between two states whose distance is above the tolerance.
    gaussNewton with its default options returns on the same data. *)
Definition far : list (nat -> binary_float 53 1024) :=
  [two (dbl 268435456 0) (dbl 268435456 0); two (dbl 268435457 0) (dbl 268435456 0);
   two (dbl 268435456 0) (dbl 268435458 0); two (dbl 536870913 (-1)) (dbl 268435458 0)].
Theorem C70_local_refuted : exists (corners : list (nat -> binary_float 53 1024)) x y,
  length corners = size 3 2 2 /\
  (forall k, (k < 2)%nat -> 0 <= B2R (x k) <= 1 /\ B2R (y k) = bilinear (map rvec corners) (rvec x) k) /\
  (forall jv, exists y', fmlg_global 53 1024 p53 e1024 2 3 2 jv corners x = Some y' /\ forall k, (k < 2)%nat -> y' k = y k) /\
  forall jv jm jk j1 j2,
    (forall fuel, fmlg_local 53 1024 p53 e1024 2 3 2 jv jm jk j1 j2 corners fuel (fcenter 53 1024 p53 e1024 3 2) y = NwLoop 53 1024) /\
    exists z, fgaussNewton 53 1024 p53 e1024 2 2 j1 j2 (fmlg_global 53 1024 p53 e1024 2 3 2 jv corners)
        (fmlg_jacobianTransposed 53 1024 p53 e1024 2 3 2 jm jk corners) y (fgn_default 53 1024 p53 e1024) (fcenter 53 1024 p53 e1024 3 2) = Some (GN_OK, z) /\
      forall k, (k < 2)%nat -> Rabs (B2R (z k) - B2R (x k)) <= / 10000000.
Proof.
  set (x := two (dbl 15 (-4)) (dbl 15 (-4))). set (y := two (dbl 137438953727 (-9)) (dbl 2147483663 (-3))).
  exists far, x, y. split; [reflexivity|].
  assert (X : forall k, (k < 2)%nat -> B2R (x k) = 15 / 16).
  { intros [|[|k]] Hk; [| |lia]; unfold x, two; rewrite (sf_value _ _ _ 8444249301319680 (-53)) by (vm_compute; reflexivity); cbn; lra. }
  split; [|split].
  - assert (V0 : B2R (dbl 268435456 0) = 268435456) by (rewrite (sf_value _ _ _ 4503599627370496 (-24)) by (vm_compute; reflexivity); cbn; lra).
    assert (V1 : B2R (dbl 268435457 0) = 268435457) by (rewrite (sf_value _ _ _ 4503599644147712 (-24)) by (vm_compute; reflexivity); cbn; lra).
    assert (V2 : B2R (dbl 268435458 0) = 268435458) by (rewrite (sf_value _ _ _ 4503599660924928 (-24)) by (vm_compute; reflexivity); cbn; lra).
    assert (V3 : B2R (dbl 536870913 (-1)) = 268435456 + / 2) by (rewrite (sf_value _ _ _ 4503599635759104 (-24)) by (vm_compute; reflexivity); cbn; lra).
    assert (Y0 : B2R (dbl 137438953727 (-9)) = 137438953727 / 512) by (rewrite (sf_value _ _ _ 4503599635726336 (-24)) by (vm_compute; reflexivity); cbn; lra).
    assert (Y1 : B2R (dbl 2147483663 (-3)) = 2147483663 / 8) by (rewrite (sf_value _ _ _ 4503599658827776 (-24)) by (vm_compute; reflexivity); cbn; lra).
    intros k Hk. split; [rewrite X by exact Hk; lra|]. unfold bilinear, far. cbn [map nth].
    assert (X0 : rvec x 0%nat = 15 / 16) by (apply X; lia). assert (X1 : rvec x 1%nat = 15 / 16) by (apply X; lia). rewrite X0, X1.
    destruct k as [|[|k]]; [| |lia]; unfold rvec, y, two; rewrite ?V0, ?V1, ?V2, ?V3, ?Y0, ?Y1; lra.
  - intro jv.
    assert (E : option_map (fun y => (B2SF (y 0%nat), B2SF (y 1%nat))) (fmlg_global 53 1024 p53 e1024 2 3 2 jv far x) = Some (B2SF (y 0%nat), B2SF (y 1%nat))) by (vm_compute; reflexivity).
    destruct (fmlg_global _ _ _ _ _ _ _ _ _ _) as [y'|]; [|discriminate]. exists y'. split; [reflexivity|]. cbn [option_map] in E. injection E as E0 E1.
    intros [|[|k]] Hk; [apply B2SF_inj, E0|apply B2SF_inj, E1|lia].
  - intros jv jm jk j1 j2. split.
    + intro fuel. rewrite local_false by (vm_compute; reflexivity).
      apply (cycle 53 1024 p53 e1024 jv jm jk j1 j2 far y (two (dbl 1 (-1)) (dbl 1 (-1))) (two (dbl 7294893146417834 (-53)) (dbl 15 (-4)))
        (two (dbl 8444249638179860 (-53)) (dbl 15 (-4))) (two (dbl 8444248627599320 (-53)) (dbl 15 (-4)))); [vm_compute; reflexivity..|apply B2SF_inj; vm_compute; reflexivity|apply B2SF_inj; vm_compute; reflexivity].
    + match goal with |- exists z, ?g = _ /\ _ => assert (E : option_map (fun '(c, z) => (c, B2SF (z 0%nat), B2SF (z 1%nat))) g =
        Some (GN_OK, SpecFloat.S754_finite false 8444249132889590 (-53), SpecFloat.S754_finite false 8444249301319680 (-53))) by (vm_compute; reflexivity);
        destruct g as [[c z]|]; [|discriminate] end.
      cbn [option_map] in E. injection E as -> E0 E1. exists z. split; [reflexivity|].
      intros k Hk. rewrite X by exact Hk. destruct k as [|[|k]]; [| |lia].
      * rewrite (sf_value _ _ _ _ _ E0). cbn. apply Rabs_le. lra.
      * rewrite (sf_value _ _ _ _ _ E1). cbn. apply Rabs_le. lra.
Qed.
Print Assumptions C70_local_refuted.

(** The same in single precision at the distance 8192. *)
Definition near : list (nat -> binary_float 24 128) :=
  [two (sgl 8192 0) (sgl 8192 0); two (sgl 8193 0) (sgl 8192 0); two (sgl 8192 0) (sgl 8194 0); two (sgl 16385 (-1)) (sgl 8194 0)].
Theorem C70_local_single_refuted : exists (corners : list (nat -> binary_float 24 128)) x y, length corners = size 3 2 2 /\
  (forall k, (k < 2)%nat -> 0 <= B2R (x k) <= 1) /\
  forall jv jm jk j1 j2, (exists y', fmlg_global 24 128 p24 e128 2 3 2 jv corners x = Some y' /\ forall k, (k < 2)%nat -> y' k = y k) /\
  forall fuel, fmlg_local 24 128 p24 e128 2 3 2 jv jm jk j1 j2 corners fuel (fcenter 24 128 p24 e128 3 2) y = NwLoop 24 128.
Proof.
  set (x := two (sgl 61 (-6)) (sgl 5 (-3))). set (y := two (sgl 8389279 (-10)) (sgl 8389888 (-10))).
  exists near, x, y. split; [reflexivity|]. split.
  { intros [|[|k]] Hk; [| |lia]; unfold x, two.
    - rewrite (sf_value _ _ _ 15990784 (-24)) by (vm_compute; reflexivity). cbn; lra.
    - rewrite (sf_value _ _ _ 10485760 (-24)) by (vm_compute; reflexivity). cbn; lra. }
  intros jv jm jk j1 j2. split.
  - assert (E : option_map (fun y => (B2SF (y 0%nat), B2SF (y 1%nat))) (fmlg_global 24 128 p24 e128 2 3 2 jv near x) = Some (B2SF (y 0%nat), B2SF (y 1%nat))) by (vm_compute; reflexivity).
    destruct (fmlg_global _ _ _ _ _ _ _ _ _ _) as [y'|]; [|discriminate]. exists y'. split; [reflexivity|]. cbn [option_map] in E. injection E as E0 E1.
    intros [|[|k]] Hk; [apply B2SF_inj, E0|apply B2SF_inj, E1|lia].
  - intro fuel. rewrite local_false by (vm_compute; reflexivity).
    apply (cycle 24 128 p24 e128 jv jm jk j1 j2 near y (two (sgl 1 (-1)) (sgl 1 (-1))) (two (sgl 15357270 (-24)) (sgl 5 (-3)))
      (two (sgl 16000714 (-24)) (sgl 5 (-3))) (two (sgl 15976883 (-24)) (sgl 5 (-3)))); [vm_compute; reflexivity..|apply B2SF_inj; vm_compute; reflexivity|apply B2SF_inj; vm_compute; reflexivity].
Qed.
Print Assumptions C70_local_single_refuted.

(** A triangle whose Jacobian determinant is computed as 1 without any error, and whose affine
    inverse is exact, is declared singular by MultiLinearGeometry::local for every coordinate. *)
Lemma local_max prec emax Hp He cdim id dim jv jm jk j1 j2 corners fuel x0 y :
  fmlg_affine prec emax Hp He cdim id dim jm jk corners <> None ->
  option_map fst (fml_step prec emax Hp He cdim id dim jv jm jk j1 j2 corners y x0) = Some false ->
  fmlg_local prec emax Hp He cdim id dim jv jm jk j1 j2 corners (S fuel) x0 y = NwMax prec emax.
Proof.
  intros A E. unfold fmlg_local. destruct (fmlg_affine _ _ _ _ _ _ _ _ _ _) as [b|]; [|congruence]. cbn [fml_newton].
  destruct (fml_step _ _ _ _ _ _ _ _ _ _ _ _ _ _ _) as [[[] dx]|]; try discriminate E. reflexivity.
Qed.
Definition shear : list (nat -> binary_float 24 128) := [two (sgl 0 0) (sgl 0 0); two (sgl 1 0) (sgl 0 0); two (sgl 4096 0) (sgl 1 0)].
Definition shear_jt : nat -> nat -> binary_float 24 128 := two (two (sgl 1 0) (sgl 0 0)) (two (sgl 4096 0) (sgl 1 0)).
Theorem C70_singular_refuted : exists (corners : list (nat -> binary_float 24 128)) jt, length corners = size 0 2 2 /\
  forall jv jm jk j1 j2,
    option_map (fun r => B2R r) (fmlg_integrationElement 24 128 p24 e128 2 0 2 jm jk j1 j2 corners (fcenter 24 128 p24 e128 0 2)) = Some 1 /\
    option_map (fun m => map (fun i => map (fun k => B2SF (m i k)) [0%nat; 1%nat]) [0%nat; 1%nat])
        (fmlg_jacobianTransposed 24 128 p24 e128 2 0 2 jm jk corners (fcenter 24 128 p24 e128 0 2))
      = Some (map (fun i => map (fun k => B2SF (jt i k)) [0%nat; 1%nat]) [0%nat; 1%nat]) /\
    option_map (fun g => map (fun k => B2SF (fai_local 24 128 p24 e128 2 g (nth 2 corners zro) k)) [0%nat; 1%nat])
        (fai_make 24 128 p24 e128 2 2 (nth 0 corners zro) jt jm j1 j2) = Some [B2SF (sgl 0 0); B2SF (sgl 1 0)] /\
    forall fuel y, fmlg_local 24 128 p24 e128 2 0 2 jv jm jk j1 j2 corners (S fuel) (fcenter 24 128 p24 e128 0 2) y = NwMax 24 128.
Proof.
  exists shear, shear_jt. split; [reflexivity|]. intros jv jm jk j1 j2. split; [|split; [|split]].
  - rewrite (coord_value (fun r => r) _ 8388608 (-23)) by (vm_compute; reflexivity). f_equal. cbn. lra.
  - vm_compute. reflexivity.
  - vm_compute. reflexivity.
  - intros fuel y. apply local_max.
    + assert (E : fmlg_affine 24 128 p24 e128 2 0 2 jm jk shear = Some true) by (vm_compute; reflexivity). rewrite E. discriminate.
    + vm_compute. reflexivity.
Qed.
Print Assumptions C70_singular_refuted.

(** In three dimensions the integration element of the same shear is 1 without error, and the
    inverse needed by the constructor of AffineGeometry stops at the assertion of the Cholesky
    decomposition. *)
Definition shear3 : nat -> nat -> binary_float 24 128 :=
  vec3 (vec3 (sgl 1 0) (sgl 0 0) (sgl 0 0)) (vec3 (sgl 4096 0) (sgl 1 0) (sgl 0 0)) (vec3 (sgl 0 0) (sgl 0 0) (sgl 1 0)).
Theorem C70_affine3_refuted : exists jt : nat -> nat -> binary_float 24 128, forall origin ret j1 j2,
  option_map (fun r => B2R r) (fsqrtDetAAT 24 128 p24 e128 3 3 jt j1 j2) = Some 1 /\ fai_make 24 128 p24 e128 3 3 origin jt ret j1 j2 = None.
Proof.
  exists shear3. intros. split.
  - rewrite (coord_value (fun r => r) _ 8388608 (-23)) by (vm_compute; reflexivity). f_equal. cbn. lra.
  - vm_compute. reflexivity.
Qed.
Print Assumptions C70_affine3_refuted.

(** A line of length 2^-75: the square underflows, the integration element and the affine
    geometry stop at an assertion, local calls the mapping singular. *)
Theorem C70_tiny_refuted : exists corners : list (nat -> binary_float 24 128), length corners = size 0 1 1 /\
  B2R (nth 0 corners zro 0%nat) = 0 /\ B2R (nth 1 corners zro 0%nat) = bpow radix2 (-75) /\
  forall jv jm jk j1 j2 ret,
    fmlg_integrationElement 24 128 p24 e128 1 0 1 jm jk j1 j2 corners (fcenter 24 128 p24 e128 0 1) = None /\
    fai_make 24 128 p24 e128 1 1 (nth 0 corners zro) (fun _ => nth 1 corners zro) ret j1 j2 = None /\
    forall fuel y, fmlg_local 24 128 p24 e128 1 0 1 jv jm jk j1 j2 corners (S fuel) (fcenter 24 128 p24 e128 0 1) y = NwMax 24 128.
Proof.
  exists [vec1 0 0; vec1 1 (-75)]. split; [reflexivity|]. split; [reflexivity|]. split.
  { cbn [nth]. unfold vec1. rewrite (sf_value _ _ _ 8388608 (-98)) by (vm_compute; reflexivity).
    change (IZR 8388608) with (bpow radix2 23). now rewrite <- bpow_plus. }
  intros. split; [vm_compute; reflexivity|]. split; [vm_compute; reflexivity|]. intros fuel y. apply local_max.
  - assert (E : fmlg_affine 24 128 p24 e128 1 0 1 jm jk [vec1 0 0; vec1 1 (-75)] = Some true) by (vm_compute; reflexivity). rewrite E. discriminate.
  - vm_compute. reflexivity.
Qed.
Print Assumptions C70_tiny_refuted.

(** the hypotheses of the theorems are satisfiable: a trapezoid at the origin and the start of
    the iteration on it, local of the image of (1/4, 1/2) returns (1/4, 1/2) after three updates *)
Definition trapezoid : list (nat -> binary_float 24 128) :=
  [two (sgl 0 0) (sgl 0 0); two (sgl 1 0) (sgl 0 0); two (sgl 0 0) (sgl 2 0); two (sgl 1 (-1)) (sgl 2 0)].
Example C70_example : forall jv jm jk j1 j2,
  length trapezoid = size 3 2 2 /\
  fmlg_affine 24 128 p24 e128 2 3 2 jm jk trapezoid = Some false /\
  map (fun k => B2SF (fcenter 24 128 p24 e128 3 2 k)) [0%nat; 1%nat] = map B2SF [sgl 1 (-1); sgl 1 (-1)] /\
  match fmlg_local 24 128 p24 e128 2 3 2 jv jm jk j1 j2 trapezoid 4 (fcenter 24 128 p24 e128 3 2) (two (sgl 3 (-4)) (sgl 1 0)) with
  | NwPt z => map B2SF [z 0%nat; z 1%nat] = map B2SF [sgl 1 (-2); sgl 1 (-1)]
  | _ => False
  end /\
  option_map fst (fgaussNewton 24 128 p24 e128 2 2 j1 j2 (fmlg_global 24 128 p24 e128 2 3 2 jv trapezoid)
    (fmlg_jacobianTransposed 24 128 p24 e128 2 3 2 jm jk trapezoid) (two (sgl 3 (-4)) (sgl 1 0)) (fgn_default 24 128 p24 e128) (fcenter 24 128 p24 e128 3 2)) = Some GN_OK.
Proof. intros. split; [reflexivity|]. split; [vm_compute; reflexivity|]. split; [vm_compute; reflexivity|]. split; vm_compute; reflexivity. Qed.
