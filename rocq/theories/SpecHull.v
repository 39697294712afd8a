(** Convex combinations of control points. *)
From Coq Require Import Arith List.
From Verif Require Import Prelude Scalar Spec.
Import ListNotations.
Local Open Scope nat_scope.

(** [q] is a convex combination of the points [P]. *)
Definition convex {T V} {o : SOps T} {ov : VOps T V} (P : list V) (q : V) : Prop :=
  exists w : list T, length w = length P /\ Forall (fun c => sle s0 c) w /\ ssum (length P) (fun i => nth i w s0) = s1 /\
    q = vsum (length P) (fun i => vscale (nth i w s0) (nth i P v0)).

From Verif Require Import ModelSpline ModelRational.

(** The control points of a rational spline, without their weights. *)
Definition unweighted {T V} {o : SOps T} {ov : VOps T V} (r : rspline T V) : list V :=
  map (fun '(u, w) => vscale (sdiv s1 w) u)
    (combine (control_points (weighted_spline r)) (control_points (weight_function r))).
