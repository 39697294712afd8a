(** Property C69: accessors of rational splines. *)
From Coq Require Import Arith Lia List ZArith QArith Qcanon.
From Verif Require Import Prelude Scalar Spec SpecSpline ModelSpline ModelRational SpecRational ModelAccess
  Examples ClaimsS.
Import ListNotations.
Local Open Scope nat_scope.

(** C69: reading and writing weighted control points and weights. *)
Theorem C69_read : forall (T V : Type) (o : SOps T) (ov : VOps T V) (F : SField T) (r : rspline T V) (idx : list nat),
  rwf r -> valid_index (rdegrees r) idx -> (Z.of_nat (number_of_control_points (weighted_spline r)) <= 2 ^ 32)%Z ->
  exists p w,
    nth_error (control_points (weighted_spline r)) (position (rdegrees r) idx) = Some p /\
    nth_error (control_points (weight_function r)) (position (rdegrees r) idx) = Some w /\
    R_WeightedControlPoint r idx = Ok p /\ R_WeightedControlPoint_variadic r idx = Ok p /\
    R_Weight r idx = Ok w /\ R_Weight_variadic r idx = Ok w /\
    (w <> s0 -> exists c, R_ControlPoint r idx = Ok c /\ c = vscale (sdiv s1 w) p) /\
    (w = s0 -> R_ControlPoint r idx = NonFinite).
Proof. exact c69_read. Qed.
Print Assumptions C69_read.
Theorem C69_write : forall (T V : Type) (r : rspline T V) (idx : list nat),
  rwf r -> valid_index (rdegrees r) idx -> (Z.of_nat (number_of_control_points (weighted_spline r)) <= 2 ^ 32)%Z ->
  (forall p, exists r', R_SetWeightedControlPoint r idx p = Ok r' /\ R_SetWeightedControlPoint_variadic r idx p = Ok r' /\
     rwf r' /\ rdegrees r' = rdegrees r /\ weight_function r' = weight_function r /\
     R_WeightedControlPoint r' idx = Ok p /\
     forall idx', valid_index (rdegrees r) idx' -> idx' <> idx ->
       R_WeightedControlPoint r' idx' = R_WeightedControlPoint r idx') /\
  (forall w, exists r', R_SetWeight r idx w = Ok r' /\ R_SetWeight_variadic r idx w = Ok r' /\
     rwf r' /\ rdegrees r' = rdegrees r /\ weighted_spline r' = weighted_spline r /\
     R_Weight r' idx = Ok w /\
     forall idx', valid_index (rdegrees r) idx' -> idx' <> idx -> R_Weight r' idx' = R_Weight r idx').
Proof. exact c69_write. Qed.
Print Assumptions C69_write.
Example C69_case :
  let r := mkR (mkSpline [1; 1] 4 [1; 2] [Q2Qc 1; Q2Qc 2; Q2Qc 3; Q2Qc 6])
               (mkSpline [1; 1] 4 [1; 2] [Q2Qc 1; Q2Qc 1; Q2Qc 1; Q2Qc 2]) in
  rwf r /\ valid_index (rdegrees r) [1; 1] /\ R_WeightedControlPoint_variadic r [1; 1] = Ok (Q2Qc 6) /\
  R_Weight_variadic r [1; 1] = Ok (Q2Qc 2) /\ R_ControlPoint r [1; 1] = Ok (Q2Qc 3) /\
  (do r' <- R_SetWeight r [1; 1] (Q2Qc 3); R_ControlPoint r' [1; 1]) = Ok (Q2Qc 2) /\
  (do r' <- R_SetWeight r [1; 1] (Q2Qc 0); R_ControlPoint r' [1; 1]) = NonFinite.
Proof. cbv zeta. split; [case_|]. split; [case_|]. do 2 (split; [reflexivity|]). split; [qc_eq|]. split; [qc_eq|]. reflexivity. Qed.
