(** Subdivision of rational splines with bounded exponents: the definitions of ModelRational.v in the
    arithmetic of ModelIEEE.v. *)
From Coq Require Import Arith List NArith ZArith Bool Reals.
From Verif Require Import Prelude Scalar ModelBasis ModelSpline ModelRational ModelRound ModelIEEE ModelIEEERat.
Import ListNotations.

Section IEEE.
Context (F : format) (rnd : R -> R).

(** src/rational_bezier_spline.inc:466-506 *)
Definition R_SplitAtPositions_ieee {d} (r : rspline fl (point fl d)) (planes : list fl) (k : nat) : res (list (rspline fl (point fl d))) :=
  R_SplitAtPositions (o := SOps_ieee F rnd) (ov := VOps_point fl d (o := SOps_ieee F rnd)) r planes k.
Definition R_SplitAtPositions_ieee_s (r : rspline fl fl) (planes : list fl) (k : nat) : res (list (rspline fl fl)) :=
  R_SplitAtPositions (o := SOps_ieee F rnd) (ov := VOps_scalar fl (o := SOps_ieee F rnd)) r planes k.
End IEEE.
