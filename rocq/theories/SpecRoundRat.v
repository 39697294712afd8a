(** What the rounding errors of rational splines are stated with. *)
From Coq Require Import Arith List Reals.
From Verif Require Import Prelude Scalar Spec SpecSpline SpecRational Coord ModelSpline ModelRational SpecRound.
Import ListNotations.
Local Open Scope R_scope.

Definition positive_weights {V} (r : rspline R V) : Prop := Forall (fun w => 0 < w) (control_points (weight_function r)).
(** Coordinate [c] of every control point is at most [B] in absolute value; the spline stores the
    control points multiplied by their weights. *)
Definition rat_bound {d} (r : rspline R (point R d)) (c : nat) (B : R) : Prop :=
  forall i, (i < n_coeffs (rdegrees r))%nat ->
    Rabs (coord d (nth i (control_points (weighted_spline r)) v0) c) <= B * nth i (control_points (weight_function r)) 0.
Definition rat_bound_s (r : rspline R R) (B : R) : Prop :=
  forall i, (i < n_coeffs (rdegrees r))%nat ->
    Rabs (nth i (control_points (weighted_spline r)) 0) <= B * nth i (control_points (weight_function r)) 0.

(** The error of a quotient whose numerator and denominator have the relative error [g], and the
    growth of the control points. *)
Definition quotient_error (g B : R) : R := 2 * g * B / (1 - g).
Definition quotient_growth (g B : R) : R := (1 + g) * B / (1 - g).
