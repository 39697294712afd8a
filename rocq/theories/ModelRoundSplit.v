(** Subdivision of scalar-valued splines at several planes when every arithmetic operation is rounded:
    the definitions of ModelSpline.v and ModelRational.v in the arithmetic of ModelRound.v. *)
From Coq Require Import Arith List NArith ZArith Bool Reals.
From Verif Require Import Prelude Scalar ModelBasis ModelSpline ModelRational ModelRound.
Import ListNotations.

Section Rounded.
Context (rnd : R -> R).

(** src/bezier_spline.inc:1418-1458 *)
Definition SplitAtPositions_rnd_s (s : spline R) (planes : list R) (k : nat) : res (list (spline R)) :=
  SplitAtPositions (o := SOps_rnd rnd) (ov := VOps_scalar R (o := SOps_rnd rnd)) s planes k.
(** src/rational_bezier_spline.inc:466-506 *)
Definition R_SplitAtPositions_rnd_s (r : rspline R R) (planes : list R) (k : nat) : res (list (rspline R R)) :=
  R_SplitAtPositions (o := SOps_rnd rnd) (ov := VOps_scalar R (o := SOps_rnd rnd)) r planes k.
End Rounded.
