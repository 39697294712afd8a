(** Rational splines computed in binary floating-point arithmetic with a bounded exponent range. *)
From Coq Require Import Arith List NArith ZArith Bool Reals.
From Verif Require Import Prelude Scalar ModelBasis ModelSpline ModelRational ModelIEEE.
Import ListNotations.
Local Open Scope R_scope.

Definition fin_rspline {d} (r : rspline R (point R d)) : rspline fl (point fl d) :=
  mkR (fin_spline (weighted_spline r)) (fin_spline_s (weight_function r)).
Definition fin_rspline_s (r : rspline R R) : rspline fl fl :=
  mkR (fin_spline_s (weighted_spline r)) (fin_spline_s (weight_function r)).

Section IEEE.
Context (F : format) (rnd : R -> R).
(** src/rational_bezier_spline.inc:126-133 (Evaluate); dividing a Point multiplies by the inverse
    (src/point.hpp:127-138). *)
Definition R_Evaluate_ieee {d} (r : rspline fl (point fl d)) (xs : list fl) : res (point fl d) :=
  R_Evaluate (o := SOps_ieee F rnd) (ov := VOps_point fl d (o := SOps_ieee F rnd)) r xs.
(** The same for a scalar PhysicalPointType, where the division is the built-in one. *)
Definition R_Evaluate_ieee_s (r : rspline fl fl) (xs : list fl) : res fl :=
  do n <- Evaluate_ieee_s F rnd (weighted_spline r) xs;
  do w <- Evaluate_ieee_s F rnd (weight_function r) xs;
  divS (H := SOps_ieee F rnd) n w.
End IEEE.
