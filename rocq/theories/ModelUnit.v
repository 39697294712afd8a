(** Corners and the unit cube when every arithmetic operation is rounded: the definitions of
    ModelSpline.v, ModelScalar.v and ModelRational.v in the arithmetic of ModelRound.v. *)
From Coq Require Import Arith List NArith ZArith Bool Reals.
From Verif Require Import Prelude Scalar Spec Coord ModelBasis ModelSpline ModelRational ModelScalar ModelRound.
Import ListNotations.

Section Rounded.
Context (rnd : R -> R).

(** src/bezier_spline.inc:831-848  FitIntoUnitCube, point-valued and scalar-valued *)
Definition FitIntoUnitCube_rnd {d} (s : spline (point R d)) : res (spline (point R d)) :=
  FitIntoUnitCube (o := SOps_rnd rnd) s.
Definition FitIntoUnitCube_rnd_s (s : spline R) : res (spline R) := FitIntoUnitCube_s (o := SOps_rnd rnd) s.
(** src/bezier_spline.inc:850-871  FitsIntoUnitCube *)
Definition FitsIntoUnitCube_rnd {d} (s : spline (point R d)) : res bool := FitsIntoUnitCube (o := SOps_rnd rnd) s.
Definition FitsIntoUnitCube_rnd_s (s : spline R) : res bool := FitsIntoUnitCube_s (o := SOps_rnd rnd) s.
(** src/rational_bezier_spline.inc:811-832  FitsIntoUnitCube of a point-valued spline: dividing a
    Point multiplies by the rounded inverse *)
Definition R_FitsIntoUnitCube_rnd {d} (r : rspline R (point R d)) : res bool := R_FitsIntoUnitCube (o := SOps_rnd rnd) r.
(** src/rational_bezier_spline.hpp:140-153  constructor from control points and weights *)
Definition R_deg_points_rnd {d} (deg : list nat) (pts : list (point R d)) (ws : list R) : res (rspline R (point R d)) :=
  R_deg_points (ov := VOps_point R d (o := SOps_rnd rnd)) deg pts ws.
Definition R_deg_points_rnd_s (deg : list nat) (pts ws : list R) : res (rspline R R) :=
  R_deg_points (ov := VOps_scalar R (o := SOps_rnd rnd)) deg pts ws.
(** Scalar-valued rational splines divide with the built-in operator, one rounding. (ModelRational.v
    multiplies by the inverse, which is the same in exact arithmetic only.) *)
Local Instance ornd : SOps R := SOps_rnd rnd.
Local Instance ovs : VOps R R := VOps_scalar R (o := SOps_rnd rnd).
(** src/rational_bezier_spline.inc:38-46  ControlPoint(std::array) *)
Definition R_ControlPoint_rnd_s (r : rspline R R) (index : list nat) : res R :=
  do p <- ControlPoint (weighted_spline r) index;
  do w <- ControlPoint (weight_function r) index;
  divS p w.
(** src/rational_bezier_spline.inc:126-133  Evaluate *)
Definition R_Evaluate_rnd_s (r : rspline R R) (xs : list R) : res R :=
  do p <- Evaluate (weighted_spline r) xs;
  do w <- Evaluate (weight_function r) xs;
  divS p w.
(** src/rational_bezier_spline.inc:834-859 MinimumCorner and 861-886 MaximumCorner *)
Definition R_Corner_rnd_s (pick : R -> R -> R) (r : rspline R R) : res R :=
  if number_of_control_points (weighted_spline r) =? 0 then Throw else
  do i0 <- LocalToGlobalIndex (weight_function r) 0;
  do m <- R_ControlPoint_rnd_s r i0;
  for_up 1 (number_of_control_points (weighted_spline r) - 1) (fun i m =>
    do p <- get (control_points (weighted_spline r)) i;
    do w <- get (control_points (weight_function r)) i;
    do c <- divS p w;
    Ok (pick m c)) m.
(** src/rational_bezier_spline.inc:811-832  FitsIntoUnitCube *)
Definition R_FitsIntoUnitCube_rnd_s (r : rspline R R) : res bool :=
  do mx <- R_Corner_rnd_s smax r;
  do mn <- R_Corner_rnd_s smin r;
  if sltb s1 mx || sltb mn s0 then Ok false else Ok true.
End Rounded.
