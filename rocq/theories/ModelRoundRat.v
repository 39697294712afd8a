(** Operations on rational splines when every arithmetic operation is rounded: the definitions of
    ModelRational.v in the arithmetic of ModelRound.v. *)
From Coq Require Import Arith List NArith ZArith Bool Reals.
From Verif Require Import Prelude Scalar Spec Coord ModelBasis ModelSpline ModelRational ModelRound ModelRoundMul.
Import ListNotations.

Section Rounded.
Context (rnd : R -> R).

(** src/rational_bezier_spline.inc:437-448, 450-464 *)
Definition R_OrderElevate_rnd {d} (r : rspline R (point R d)) (k : nat) : res (rspline R (point R d)) :=
  R_OrderElevate (o := SOps_rnd rnd) (ov := VOps_point R d (o := SOps_rnd rnd)) r k.
Definition R_SplitAtPosition_rnd {d} (r : rspline R (point R d)) (x : R) (k : nat) : res (list (rspline R (point R d))) :=
  R_SplitAtPosition (o := SOps_rnd rnd) (ov := VOps_point R d (o := SOps_rnd rnd)) r x k.
Definition R_OrderElevate_rnd_s (r : rspline R R) (k : nat) : res (rspline R R) :=
  R_OrderElevate (o := SOps_rnd rnd) (ov := VOps_scalar R (o := SOps_rnd rnd)) r k.
Definition R_SplitAtPosition_rnd_s (r : rspline R R) (x : R) (k : nat) : res (list (rspline R R)) :=
  R_SplitAtPosition (o := SOps_rnd rnd) (ov := VOps_scalar R (o := SOps_rnd rnd)) r x k.
(** src/rational_bezier_spline.inc:466-506 *)
Definition R_SplitAtPositions_rnd {d} (r : rspline R (point R d)) (planes : list R) (k : nat) : res (list (rspline R (point R d))) :=
  R_SplitAtPositions (o := SOps_rnd rnd) (ov := VOps_point R d (o := SOps_rnd rnd)) r planes k.

Context (MAXB : nat).
(** src/rational_bezier_spline.inc:714-724  operator*, the product of two scalar functions, of a
    vector function and a scalar one, and the scalar product of two vector functions. *)
Definition R_mul_rnd_ss (r s : rspline R R) : res (rspline R R) :=
  R_mul (o := SOps_rnd rnd) (o3 := VOps_scalar R (o := SOps_rnd rnd)) MAXB (smul (SOps := SOps_rnd rnd)) r s.
Definition R_mul_rnd_ps {d} (r : rspline R (point R d)) (s : rspline R R) : res (rspline R (point R d)) :=
  R_mul (o := SOps_rnd rnd) (o3 := VOps_point R d (o := SOps_rnd rnd)) MAXB
    (fun q c => vscale (VOps := VOps_point R d (o := SOps_rnd rnd)) c q) r s.
Definition R_mul_rnd_pp {d} (r s : rspline R (point R d)) : res (rspline R R) :=
  R_mul (o := SOps_rnd rnd) (o3 := VOps_scalar R (o := SOps_rnd rnd)) MAXB (dot_rnd rnd d) r s.

(** src/rational_bezier_spline.inc:638-712  operator+, operator+=, operator-, operator-= *)
Definition R_add_rnd (fuel : nat) {d} (r s : rspline R (point R d)) : res (rspline R (point R d)) :=
  R_add (o := SOps_rnd rnd) (ov := VOps_point R d (o := SOps_rnd rnd)) MAXB fuel r s.
Definition R_add_assign_rnd (fuel : nat) {d} (r s : rspline R (point R d)) : res (rspline R (point R d)) :=
  R_add_assign (o := SOps_rnd rnd) (ov := VOps_point R d (o := SOps_rnd rnd)) MAXB fuel r s.
Definition R_sub_rnd (fuel : nat) {d} (r s : rspline R (point R d)) : res (rspline R (point R d)) :=
  R_sub (o := SOps_rnd rnd) (ov := VOps_point R d (o := SOps_rnd rnd)) MAXB fuel r s.
Definition R_sub_assign_rnd (fuel : nat) {d} (r s : rspline R (point R d)) : res (rspline R (point R d)) :=
  R_sub_assign (o := SOps_rnd rnd) (ov := VOps_point R d (o := SOps_rnd rnd)) MAXB fuel r s.

(** src/rational_bezier_spline.hpp:446-460  Compose with a polynomial inner spline *)
Definition Compose_RP_rnd {m d} (outer : rspline R (point R m)) (inner : spline (point R d)) : res (rspline R (point R m)) :=
  Compose_RP (o := SOps_rnd rnd) (ov := VOps_point R m (o := SOps_rnd rnd)) MAXB outer inner.
Definition Compose_RP_rnd_s {d} (outer : rspline R R) (inner : spline (point R d)) : res (rspline R R) :=
  Compose_RP (o := SOps_rnd rnd) (ov := VOps_scalar R (o := SOps_rnd rnd)) MAXB outer inner.
End Rounded.
