(** Subdivision at several planes with bounded exponents: the definition of ModelSpline.v in the
    arithmetic of ModelIEEE.v. *)
From Coq Require Import Arith List NArith ZArith Bool Reals.
From Verif Require Import Prelude Scalar ModelBasis ModelSpline ModelRound ModelIEEE.
Import ListNotations.

Section IEEE.
Context (F : format) (rnd : R -> R).

(** src/bezier_spline.inc:1418-1458 *)
Definition SplitAtPositions_ieee {d} (s : spline (point fl d)) (planes : list fl) (k : nat) : res (list (spline (point fl d))) :=
  SplitAtPositions (o := SOps_ieee F rnd) (ov := VOps_point fl d (o := SOps_ieee F rnd)) s planes k.
Definition SplitAtPositions_ieee_s (s : spline fl) (planes : list fl) (k : nat) : res (list (spline fl)) :=
  SplitAtPositions (o := SOps_ieee F rnd) (ov := VOps_scalar fl (o := SOps_ieee F rnd)) s planes k.
End IEEE.
