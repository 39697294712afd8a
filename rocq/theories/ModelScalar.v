(** Scalar-valued splines ([PhysicalPointType] is an arithmetic type): the branches
    [std::is_arithmetic_v<PhysicalPointType>] of src/bezier_spline.inc and
    src/rational_bezier_spline.inc, and composition with a scalar-valued inner spline. *)
From Coq Require Import Arith List ZArith NArith Bool.
From Verif Require Import Prelude Scalar ModelBasis ModelSpline ModelRational.
Import ListNotations.

Section Scalar.
Context {T : Type} {o : SOps T}.

(** src/bezier_spline.inc:701-725  ExtractDimension (scalar branch: a copy of the spline) *)
Definition ExtractDimension_s (s : spline T) (dimension : nat) : res (spline T) :=
  if negb (dimension =? 0) then Throw else Ok s.

(** src/bezier_spline.inc:762-783  MaximumCorner and 785-806 MinimumCorner (scalar branch) *)
Definition Corner_s (pick : T -> T -> T) (s : spline T) : res T :=
  if number_of_control_points s =? 0 then Throw else
  do m <- get (control_points s) 0;
  for_up 1 (number_of_control_points s - 1) (fun i m =>
    do c <- get (control_points s) i;
    Ok (pick m c)) m.
Definition MaximumCorner_s := Corner_s smax.
Definition MinimumCorner_s := Corner_s smin.

(** src/bezier_spline.inc:808-829  TransposeAndScale (scalar branch) *)
Definition TransposeAndScale_s (s : spline T) (transposition scale : T) : res (spline T) :=
  do c <- for_up 0 (number_of_control_points s) (fun i c =>
    do x <- get c i;
    set c i (smul (sadd transposition x) scale)) (control_points s);
  Ok (with_cps s c).

(** src/bezier_spline.inc:831-848  FitIntoUnitCube (scalar branch) *)
Definition FitIntoUnitCube_s (s : spline T) : res (spline T) :=
  do mx <- MaximumCorner_s s;
  do mn <- MinimumCorner_s s;
  do sc <- divS s1 (ssub mx mn);
  TransposeAndScale_s s (sopp mn) sc.

(** src/bezier_spline.inc:850-871  FitsIntoUnitCube (scalar branch) *)
Definition FitsIntoUnitCube_s (s : spline T) : res bool :=
  do mx <- MaximumCorner_s s;
  do mn <- MinimumCorner_s s;
  if sltb s1 mx || sltb mn s0 then Ok false else Ok true.

(** src/rational_bezier_spline.inc:726-733  ExtractDimension *)
Definition R_ExtractDimension_s (r : rspline T T) (k : nat) : res (spline T) :=
  ExtractDimension_s (weighted_spline r) k.

(** src/rational_bezier_spline.inc:834-859 MinimumCorner and 861-886 MaximumCorner
    (scalar branch, built-in division) *)
Definition R_Corner_s (pick : T -> T -> T) (r : rspline T T) : res T :=
  if number_of_control_points (weighted_spline r) =? 0 then Throw else
  do i0 <- LocalToGlobalIndex (weight_function r) 0;
  do m <- R_ControlPoint r i0;
  for_up 1 (number_of_control_points (weighted_spline r) - 1) (fun i m =>
    do p <- get (control_points (weighted_spline r)) i;
    do w <- get (control_points (weight_function r)) i;
    do c <- divS p w;
    Ok (pick m c)) m.
Definition R_MaximumCorner_s := R_Corner_s smax.
Definition R_MinimumCorner_s := R_Corner_s smin.

(** src/rational_bezier_spline.inc:811-832  FitsIntoUnitCube (scalar branch) *)
Definition R_FitsIntoUnitCube_s (r : rspline T T) : res bool :=
  do mx <- R_MaximumCorner_s r;
  do mn <- R_MinimumCorner_s r;
  if sltb s1 mx || sltb mn s0 then Ok false else Ok true.
End Scalar.

(** Composition with a scalar-valued inner spline; the static_assert demands one
    parametric dimension of the outer spline. *)
Section Compose.
Context (MAXB fuel : nat).
Context {T V : Type} {o : SOps T} {ov : VOps T V}.

(** src/bezier_spline.inc:908-931 *)
Definition Compose_s {V} {ov : VOps T V} (outer : spline V) (inner : spline T) : res (spline V) :=
  do fits <- FitsIntoUnitCube_s inner;
  if negb fits then Throw else
  ComposeNumerator MAXB outer (degrees inner) (ExtractDimension_s inner) inverse_poly.

(** src/bezier_spline.inc:933-957 *)
Definition ComposeSensitivity_s (outer : spline V) (inner : spline T) : res (list (spline T)) :=
  do fits <- FitsIntoUnitCube_s inner;
  if negb fits then Throw else
  ComposeNumeratorSensitivity MAXB outer (degrees inner) (ExtractDimension_s inner) inverse_poly.

Definition ComposeNumerator_R_s {V} {ov : VOps T V} (outer : spline V) (inner : rspline T T) : res (spline V) :=
  ComposeNumerator MAXB outer (degrees (weighted_spline inner)) (R_ExtractDimension_s inner)
    (inverse_rational fuel (weight_function inner)).
Definition ComposeNumeratorSensitivity_R_s {V} (outer : spline V) (inner : rspline T T) : res (list (spline T)) :=
  ComposeNumeratorSensitivity MAXB outer (degrees (weighted_spline inner)) (R_ExtractDimension_s inner)
    (inverse_rational fuel (weight_function inner)).
(** src/bezier_spline.inc:1304-1321 *)
Definition ComposeDenominator_s {V} (outer : spline V) (inner : rspline T T) : res (spline T) :=
  RaisePower MAXB (weight_function inner) (sum_degrees outer).

(** src/bezier_spline.inc:959-986 *)
Definition Compose_PR_s (outer : spline V) (inner : rspline T T) : res (rspline T V) :=
  do fits <- R_FitsIntoUnitCube_s inner;
  if negb fits then Throw else
  do u <- ComposeNumerator_R_s outer inner;
  do w <- ComposeDenominator_s outer inner;
  R_mk u w.

(** src/bezier_spline.inc:988-1034 *)
Definition ComposeSensitivity_PR_s (outer : spline V) (inner : rspline T T) : res (list (rspline T T)) :=
  do fits <- R_FitsIntoUnitCube_s inner;
  if negb fits then Throw else
  do us <- ComposeNumeratorSensitivity_R_s outer inner;
  do w <- ComposeDenominator_s outer inner;
  for_up 0 (number_of_control_points outer) (fun i out =>
    do u <- get us i; do r <- R_mk u w; Ok (out ++ [r])) [].

(** src/rational_bezier_spline.hpp:446-460 *)
Definition Compose_RP_s (outer : rspline T V) (inner : spline T) : res (rspline T V) :=
  do u <- Compose_s (weighted_spline outer) inner;
  do w <- Compose_s (weight_function outer) inner;
  R_mk u w.

(** src/rational_bezier_spline.inc:735-772 *)
Definition ComposeSensitivity_RP_s (outer : rspline T V) (inner : spline T) : res (list (rspline T T)) :=
  do nums <- ComposeSensitivity_s (weighted_spline outer) inner;
  do den <- Compose_s (weight_function outer) inner;
  scale_sensitivities outer nums den.

(** src/rational_bezier_spline.hpp:502-521 *)
Definition Compose_RR_s (outer : rspline T V) (inner : rspline T T) : res (rspline T V) :=
  do u <- ComposeNumerator_R_s (weighted_spline outer) inner;
  do w <- ComposeNumerator_R_s (weight_function outer) inner;
  R_mk u w.

(** src/rational_bezier_spline.inc:774-809 *)
Definition ComposeSensitivity_RR_s (outer : rspline T V) (inner : rspline T T) : res (list (rspline T T)) :=
  do nums <- ComposeNumeratorSensitivity_R_s (weighted_spline outer) inner;
  do den <- ComposeNumerator_R_s (weight_function outer) inner;
  scale_sensitivities outer nums den.
End Compose.
