(** Compositions with a rational inner spline in rounded arithmetic: the definitions of ModelRational.v over the operations of ModelRound.v,
    for outer splines with points and with numbers as control points. *)
From Coq Require Import List Reals.
From Verif Require Import Prelude Scalar ModelPoint ModelSpline ModelRational ModelRound.
Section R.
Context (rnd : R -> R) (MAXB fuel : nat).
(** src/bezier_spline.inc:959-986 *)
Definition Compose_PR_rnd {m d} (outer : spline (point R m)) (inner : rspline R (point R d)) : res (rspline R (point R m)) :=
  Compose_PR (o := SOps_rnd rnd) (ov := VOps_point R m (o := SOps_rnd rnd)) MAXB fuel outer inner.
Definition Compose_PR_rnd_s {d} (outer : spline R) (inner : rspline R (point R d)) : res (rspline R R) :=
  Compose_PR (o := SOps_rnd rnd) (ov := VOps_scalar R (o := SOps_rnd rnd)) MAXB fuel outer inner.
(** src/bezier_spline.inc:988-1034 *)
Definition ComposeSensitivity_PR_rnd {V d} (outer : spline V) (inner : rspline R (point R d)) : res (list (rspline R R)) :=
  ComposeSensitivity_PR (o := SOps_rnd rnd) MAXB fuel outer inner.
(** src/rational_bezier_spline.hpp:502-521 *)
Definition Compose_RR_rnd {m d} (outer : rspline R (point R m)) (inner : rspline R (point R d)) : res (rspline R (point R m)) :=
  Compose_RR (o := SOps_rnd rnd) (ov := VOps_point R m (o := SOps_rnd rnd)) MAXB fuel outer inner.
Definition Compose_RR_rnd_s {d} (outer : rspline R R) (inner : rspline R (point R d)) : res (rspline R R) :=
  Compose_RR (o := SOps_rnd rnd) (ov := VOps_scalar R (o := SOps_rnd rnd)) MAXB fuel outer inner.
(** src/rational_bezier_spline.inc:774-809 *)
Definition ComposeSensitivity_RR_rnd {V d} (outer : rspline R V) (inner : rspline R (point R d)) : res (list (rspline R R)) :=
  ComposeSensitivity_RR (o := SOps_rnd rnd) MAXB fuel outer inner.
(** src/rational_bezier_spline.inc:735-772 *)
Definition ComposeSensitivity_RP_rnd {V d} (outer : rspline R V) (inner : spline (point R d)) : res (list (rspline R R)) :=
  ComposeSensitivity_RP (o := SOps_rnd rnd) MAXB outer inner.
End R.
