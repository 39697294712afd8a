(** Words the properties of the unit cube are stated with. *)
From Coq Require Import Arith List Reals.
From Verif Require Import Prelude Scalar Spec SpecSpline Coord ModelSpline ModelRational SpecRational ModelRound.
Local Open Scope R_scope.

(** Every coordinate of every control point lies between 0 and 1. *)
Definition in_cube {d} (s : spline (point R d)) : Prop :=
  forall i k, (i < n_coeffs (degrees s))%nat -> (k < d)%nat -> 0 <= coord d (nth i (control_points s) v0) k <= 1.
Definition in_interval (s : spline R) : Prop :=
  forall i, (i < n_coeffs (degrees s))%nat -> 0 <= nth i (control_points s) 0 <= 1.
(** The weights are positive, and the coordinates of the weighted control points lie between 0 and
    the weight. *)
Definition in_cube_weighted {d} (r : rspline R (point R d)) : Prop :=
  forall i, (i < n_coeffs (rdegrees r))%nat -> 0 < nth i (control_points (weight_function r)) 0 /\
    forall k, (k < d)%nat -> 0 <= coord d (nth i (control_points (weighted_spline r)) v0) k <= nth i (control_points (weight_function r)) 0.
Definition in_interval_weighted (r : rspline R R) : Prop :=
  forall i, (i < n_coeffs (rdegrees r))%nat -> 0 < nth i (control_points (weight_function r)) 0 /\
    0 <= nth i (control_points (weighted_spline r)) 0 <= nth i (control_points (weight_function r)) 0.
(** The coordinates are numbers of the format. *)
Definition numbers (p : nat) {d} (s : spline (point R d)) : Prop :=
  forall i k, (i < n_coeffs (degrees s))%nat -> (k < d)%nat -> representable p (coord d (nth i (control_points s) v0) k).
(** A parameter in the unit interval that is a number of the format. *)
Definition parameter (p : nat) (x : R) : Prop := representable p x /\ 0 <= x <= 1.
(** No coordinate is constant over the control points. *)
Definition varies {d} (s : spline (point R d)) : Prop :=
  forall k, (k < d)%nat -> exists i j, (i < n_coeffs (degrees s))%nat /\ (j < n_coeffs (degrees s))%nat /\
    coord d (nth i (control_points s) v0) k <> coord d (nth j (control_points s) v0) k.
(** [lo] is the least and [hi] the greatest of the numbers [f 0 .. f (n-1)]. *)
Definition range (f : nat -> R) (n : nat) (lo hi : R) : Prop :=
  (forall i, (i < n)%nat -> lo <= f i <= hi) /\ (exists i, (i < n)%nat /\ f i = lo) /\ (exists i, (i < n)%nat /\ f i = hi).
