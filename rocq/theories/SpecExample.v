(** Sets described by the example program. *)
From Coq Require Import Arith List Reals.
From Verif Require Import Prelude Scalar ModelBasis ModelSpline ModelRational SpecSpline SpecRational ModelExample.
Import ListNotations.
Local Open Scope R_scope.

Definition unit_real (x : R) : Prop := 0 <= x <= 1.

(** The spline maps the unit square linearly to the rectangle [x0, x1] x [y0, y1]. *)
Definition rectangle (x0 x1 y0 y1 : R) (s : spline (point R 2)) : Prop :=
  wf s /\ degrees s = [1; 1]%nat /\
  forall u v, Evaluate s [u; v] = Ok (Point2D (x0 + (x1 - x0) * u) (y0 + (y1 - y0) * v)).

(** Cross with bars of the given thickness in the unit square. *)
Definition in_cross (thickness x y : R) : Prop :=
  (Rabs (x - / 2) <= thickness / 2 /\ unit_real y) \/ (Rabs (y - / 2) <= thickness / 2 /\ unit_real x).

(** Point with radius [r] and angle [a]. *)
Definition polar (r a : R) : point R 2 := Point2D (r * cos a) (r * sin a).

(** The spline maps the unit square onto segment [k] of a ring cut in segments of the angle
    [delta]: the second parameter gives the radius, the first one runs through the angles. *)
Definition ring_segment (innerR outerR delta : R) (k : nat) (r : rspline R (point R 2)) : Prop :=
  rwf r /\ rdegrees r = [2; 1]%nat /\
  (forall u v, unit_real u -> exists l, unit_real l /\
     R_Evaluate r [u; v] = Ok (polar ((1 - v) * outerR + v * innerR) (delta * (INR k + l)))) /\
  (forall l v, unit_real l -> exists u, unit_real u /\
     R_Evaluate r [u; v] = Ok (polar ((1 - v) * outerR + v * innerR) (delta * (INR k + l)))).
