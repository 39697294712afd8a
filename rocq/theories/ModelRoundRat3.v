(** Derivatives of rational splines in rounded arithmetic: the definition of ModelRational.v over the operations of ModelRound.v,
    for points and for numbers as control points. *)
From Coq Require Import List Reals.
From Verif Require Import Prelude Scalar ModelPoint ModelSpline ModelRational ModelRound.
Section R.
Context (rnd : R -> R) (MAXB fuel : nat).
(** src/rational_bezier_spline.inc:508-546 *)
Definition R_DerivativeWRT_rnd {d} (r : rspline R (point R d)) (orders : list nat) : res (rspline R (point R d)) :=
  R_DerivativeWRT (o := SOps_rnd rnd) (ov := VOps_point R d (o := SOps_rnd rnd)) MAXB fuel r orders.
Definition R_DerivativeWRT_rnd_s (r : rspline R R) (orders : list nat) : res (rspline R R) :=
  R_DerivativeWRT (o := SOps_rnd rnd) (ov := VOps_scalar R (o := SOps_rnd rnd)) MAXB fuel r orders.
End R.
