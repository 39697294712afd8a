(** Products, powers and compositions of splines when every arithmetic operation is rounded: the
    definitions of ModelSpline.v in the arithmetic of ModelRound.v. *)
From Coq Require Import Arith List NArith ZArith Bool Reals.
From Verif Require Import Prelude Scalar Spec Coord ModelBasis ModelSpline ModelRound.
Import ListNotations.

Section Rounded.
Context (rnd : R -> R) (MAXB : nat).

(** src/bezier_spline.inc:873-906  operator*, scalar times scalar, point times scalar, scalar times
    point and the scalar product of points, src/point.hpp:108-117 and 148-158. *)
Definition spline_mul_rnd_ss (P Q : spline R) : res (spline R) := spline_mul_ss (o := SOps_rnd rnd) MAXB P Q.
Definition spline_mul_rnd_ps {d} (P : spline (point R d)) (Q : spline R) : res (spline (point R d)) :=
  spline_mul (o := SOps_rnd rnd) (o3 := VOps_point R d (o := SOps_rnd rnd)) MAXB
    (fun q c => vscale (VOps := VOps_point R d (o := SOps_rnd rnd)) c q) P Q.
Definition spline_mul_rnd_sp {d} (P : spline R) (Q : spline (point R d)) : res (spline (point R d)) :=
  spline_mul (o := SOps_rnd rnd) (o3 := VOps_point R d (o := SOps_rnd rnd)) MAXB
    (fun c q => vscale (VOps := VOps_point R d (o := SOps_rnd rnd)) c q) P Q.
Definition dot_rnd d (a b : point R d) : R :=
  ssum (o := SOps_rnd rnd) d (fun k => smul (SOps := SOps_rnd rnd) (coord (o := SOps_rnd rnd) d a k) (coord (o := SOps_rnd rnd) d b k)).
Definition spline_mul_rnd_pp {d} (P Q : spline (point R d)) : res (spline R) :=
  spline_mul (o := SOps_rnd rnd) (o3 := VOps_scalar R (o := SOps_rnd rnd)) MAXB (dot_rnd d) P Q.

(** src/bezier_spline.inc:727-760  RaisePower *)
Definition RaisePower_rnd (s : spline R) (n : nat) : res (spline R) := RaisePower (o := SOps_rnd rnd) MAXB s n.

(** src/bezier_spline.inc:908-957  Compose and ComposeSensitivity *)
Definition Compose_rnd {m d} (outer : spline (point R m)) (inner : spline (point R d)) : res (spline (point R m)) :=
  Compose (o := SOps_rnd rnd) (ov := VOps_point R m (o := SOps_rnd rnd)) MAXB outer inner.
Definition Compose_rnd_s {d} (outer : spline R) (inner : spline (point R d)) : res (spline R) :=
  Compose (o := SOps_rnd rnd) (ov := VOps_scalar R (o := SOps_rnd rnd)) MAXB outer inner.
Definition ComposeSensitivity_rnd {V d} (outer : spline V) (inner : spline (point R d)) : res (list (spline R)) :=
  ComposeSensitivity (o := SOps_rnd rnd) MAXB outer inner.
End Rounded.
