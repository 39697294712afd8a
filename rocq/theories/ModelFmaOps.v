(** Elevation, sums, subdivision and derivatives of splines when the compiler may contract
    a multiplication and an addition into one fused operation (src/bezier_spline.inc:
    OrderElevateAlongParametricDimension, DerivativeWRTParametricDimension, operator+, operator+=,
    operator-=, SplitAtPosition, lines as cited in ModelSpline.v); see ModelFma.v for the meaning of trees. *)
From Coq Require Import Arith List NArith ZArith Bool Reals.
From Verif Require Import Prelude Scalar Coord ModelBasis ModelSpline ModelRound ModelFma.
Import ListNotations.
Local Open Scope R_scope.

Section Ops.
Context (rnd : R -> R).
Notation ot := (SOps_term rnd).
Notation Vt d := (VOps_point term d (o := ot)).
Notation Vts := (VOps_scalar term (o := ot)).

(** [e] is a possible value of the spline of trees [t]: the same integers, and every coordinate of
    every control point is a possible value of its tree. *)
Definition means_spline {d} (t : spline (point term d)) (e : spline (point R d)) : Prop :=
  degrees e = degrees t /\ number_of_control_points e = number_of_control_points t /\
  index_offsets e = index_offsets t /\ Forall2 (means_point rnd) (control_points t) (control_points e).
Definition means_spline_s (t : spline term) (e : spline R) : Prop :=
  degrees e = degrees t /\ number_of_control_points e = number_of_control_points t /\
  index_offsets e = index_offsets t /\ Forall2 (means rnd) (control_points t) (control_points e).

Definition OrderElevate_fma {d} (s : spline (point R d)) (k : nat) (e : spline (point R d)) : Prop :=
  exists t, OrderElevate (o := ot) (ov := Vt d) (num_spline s) k = Ok t /\ means_spline t e.
Definition OrderElevate_fma_s (s : spline R) (k : nat) (e : spline R) : Prop :=
  exists t, OrderElevate (o := ot) (ov := Vts) (num_spline_s s) k = Ok t /\ means_spline_s t e.
Definition SplitAtPosition_fma {d} (s : spline (point R d)) (x : R) (k : nat) (l r : spline (point R d)) : Prop :=
  exists tl tr, SplitAtPosition (o := ot) (ov := Vt d) (num_spline s) (Num x) k = Ok [tl; tr] /\
    means_spline tl l /\ means_spline tr r.
Definition SplitAtPosition_fma_s (s : spline R) (x : R) (k : nat) (l r : spline R) : Prop :=
  exists tl tr, SplitAtPosition (o := ot) (ov := Vts) (num_spline_s s) (Num x) k = Ok [tl; tr] /\
    means_spline_s tl l /\ means_spline_s tr r.
Definition spline_add_fma (fuel : nat) {d} (s rhs e : spline (point R d)) : Prop :=
  exists t, spline_add (o := ot) (ov := Vt d) fuel (num_spline s) (num_spline rhs) = Ok t /\ means_spline t e.
Definition spline_add_fma_s (fuel : nat) (s rhs e : spline R) : Prop :=
  exists t, spline_add (o := ot) (ov := Vts) fuel (num_spline_s s) (num_spline_s rhs) = Ok t /\ means_spline_s t e.
Definition spline_add_assign_fma (fuel : nat) {d} (s rhs e : spline (point R d)) : Prop :=
  exists t, spline_add_assign (o := ot) (ov := Vt d) fuel (num_spline s) (num_spline rhs) = Ok t /\ means_spline t e.
Definition spline_add_assign_fma_s (fuel : nat) (s rhs e : spline R) : Prop :=
  exists t, spline_add_assign (o := ot) (ov := Vts) fuel (num_spline_s s) (num_spline_s rhs) = Ok t /\ means_spline_s t e.
Definition spline_sub_assign_fma (fuel : nat) {d} (s rhs e : spline (point R d)) : Prop :=
  exists t, spline_sub_assign (o := ot) (ov := Vt d) fuel (num_spline s) (num_spline rhs) = Ok t /\ means_spline t e.
Definition spline_sub_assign_fma_s (fuel : nat) (s rhs e : spline R) : Prop :=
  exists t, spline_sub_assign (o := ot) (ov := Vts) fuel (num_spline_s s) (num_spline_s rhs) = Ok t /\ means_spline_s t e.
Definition DerivativeWRT_fma (MAXB : nat) {d} (s : spline (point R d)) (orders : list nat) (e : spline (point R d)) : Prop :=
  exists t, DerivativeWRT (o := ot) (ov := Vt d) MAXB (num_spline s) orders = Ok t /\ means_spline t e.
Definition DerivativeWRT_fma_s (MAXB : nat) (s : spline R) (orders : list nat) (e : spline R) : Prop :=
  exists t, DerivativeWRT (o := ot) (ov := Vts) MAXB (num_spline_s s) orders = Ok t /\ means_spline_s t e.
End Ops.
