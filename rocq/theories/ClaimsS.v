(** C69: accessors of rational splines. *)
From Coq Require Import Arith Lia List ZArith.
From Verif Require Import Prelude Scalar Spec SpecSpline ModelSpline ModelRational SpecRational ModelAccess
  ClaimsA.
Import ListNotations.

Lemma c69_read : forall (T V : Type) (o : SOps T) (ov : VOps T V) (F : SField T) (r : rspline T V) (idx : list nat),
  rwf r -> valid_index (rdegrees r) idx -> (Z.of_nat (number_of_control_points (weighted_spline r)) <= 2 ^ 32)%Z ->
  exists p w,
    nth_error (control_points (weighted_spline r)) (position (rdegrees r) idx) = Some p /\
    nth_error (control_points (weight_function r)) (position (rdegrees r) idx) = Some w /\
    R_WeightedControlPoint r idx = Ok p /\ R_WeightedControlPoint_variadic r idx = Ok p /\
    R_Weight r idx = Ok w /\ R_Weight_variadic r idx = Ok w /\
    (w <> s0 -> exists c, R_ControlPoint r idx = Ok c /\ c = vscale (sdiv s1 w) p) /\
    (w = s0 -> R_ControlPoint r idx = NonFinite).
Proof.
  intros T V o ov F r idx (W1 & W2 & W3) HI HN. unfold rdegrees in *.
  assert (HN2 : (Z.of_nat (number_of_control_points (weight_function r)) <= 2 ^ 32)%Z).
  { destruct W1 as (_ & E1 & _), W2 as (_ & E2 & _). rewrite E2, W3, <- E1. exact HN. }
  destruct (c03_control_point_access V (weighted_spline r) idx W1 HI HN) as ((p & P1 & P2 & P3) & _).
  assert (HI2 : valid_index (degrees (weight_function r)) idx) by now rewrite W3.
  destruct (c03_control_point_access T (weight_function r) idx W2 HI2 HN2) as ((w & Q1 & Q2 & Q3) & _).
  rewrite W3 in Q3. exists p, w. repeat (split; [assumption|]).
  assert (HE : seqb w s0 = true <-> w = s0) by apply sf_eqb.
  unfold R_ControlPoint. rewrite P2, Q2. cbn [bind]. unfold vdiv, divS. split; intros H.
  - destruct (seqb w s0); [exfalso; apply H, HE; reflexivity|]. cbn [bind]. eauto.
  - rewrite (proj2 HE H). reflexivity.
Qed.

Lemma c69_write : forall (T V : Type) (r : rspline T V) (idx : list nat),
  rwf r -> valid_index (rdegrees r) idx -> (Z.of_nat (number_of_control_points (weighted_spline r)) <= 2 ^ 32)%Z ->
  (forall p, exists r', R_SetWeightedControlPoint r idx p = Ok r' /\ R_SetWeightedControlPoint_variadic r idx p = Ok r' /\
     rwf r' /\ rdegrees r' = rdegrees r /\ weight_function r' = weight_function r /\
     R_WeightedControlPoint r' idx = Ok p /\
     forall idx', valid_index (rdegrees r) idx' -> idx' <> idx ->
       R_WeightedControlPoint r' idx' = R_WeightedControlPoint r idx') /\
  (forall w, exists r', R_SetWeight r idx w = Ok r' /\ R_SetWeight_variadic r idx w = Ok r' /\
     rwf r' /\ rdegrees r' = rdegrees r /\ weighted_spline r' = weighted_spline r /\
     R_Weight r' idx = Ok w /\
     forall idx', valid_index (rdegrees r) idx' -> idx' <> idx -> R_Weight r' idx' = R_Weight r idx').
Proof.
  intros T V r idx (W1 & W2 & W3) HI HN. unfold rdegrees in *.
  assert (HN2 : (Z.of_nat (number_of_control_points (weight_function r)) <= 2 ^ 32)%Z).
  { destruct W1 as (_ & E1 & _), W2 as (_ & E2 & _). rewrite E2, W3, <- E1. exact HN. }
  assert (HI2 : valid_index (degrees (weight_function r)) idx) by now rewrite W3.
  split.
  - intros p. destruct (c03_control_point_access V (weighted_spline r) idx W1 HI HN) as (_ & H).
    destruct (H p) as (s' & E1 & E2 & E3 & E4 & E5 & E6).
    unfold R_SetWeightedControlPoint, R_SetWeightedControlPoint_variadic. rewrite E1, E2. cbn [bind].
    eexists. do 2 (split; [reflexivity|]). unfold rwf. cbn [weighted_spline weight_function].
    repeat split; auto; try (apply E3); try (apply W2). now rewrite W3.
  - intros w. destruct (c03_control_point_access T (weight_function r) idx W2 HI2 HN2) as (_ & H).
    destruct (H w) as (s' & E1 & E2 & E3 & E4 & E5 & E6).
    unfold R_SetWeight, R_SetWeight_variadic. rewrite E1, E2. cbn [bind].
    eexists. do 2 (split; [reflexivity|]). unfold rwf. cbn [weighted_spline weight_function].
    repeat split; auto; try (apply E3); try (apply W1). now rewrite E4.
    intros idx' HV HX. apply E6; auto. now rewrite W3.
Qed.
