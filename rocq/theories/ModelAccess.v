(** The remaining accessors of rational splines. *)
From Coq Require Import Arith List.
From Verif Require Import Prelude Scalar ModelSpline ModelRational.
Import ListNotations.

Section Access.
Context {T V : Type}.

(** src/rational_bezier_spline.inc:48-69  WeightedControlPoint(index...), both versions *)
Definition R_WeightedControlPoint_variadic (r : rspline T V) (index : list nat) : res V :=
  ControlPoint_variadic (weighted_spline r) index.
(** Writing through the reference returned by the non-const versions, inc:48-58 and inc:71-78. *)
Definition R_SetWeightedControlPoint_variadic (r : rspline T V) (index : list nat) (p : V) : res (rspline T V) :=
  do u <- SetControlPoint_variadic (weighted_spline r) index p; Ok (mkR u (weight_function r)).
Definition R_SetWeightedControlPoint (r : rspline T V) (index : list nat) (p : V) : res (rspline T V) :=
  do u <- SetControlPoint (weighted_spline r) index p; Ok (mkR u (weight_function r)).

(** src/rational_bezier_spline.inc:89-109  Weight(index...), both versions *)
Definition R_Weight_variadic (r : rspline T V) (index : list nat) : res T :=
  ControlPoint_variadic (weight_function r) index.
(** Writing through the reference returned by the non-const versions, inc:89-98 and inc:111-117. *)
Definition R_SetWeight_variadic (r : rspline T V) (index : list nat) (w : T) : res (rspline T V) :=
  do f <- SetControlPoint_variadic (weight_function r) index w; Ok (mkR (weighted_spline r) f).
Definition R_SetWeight (r : rspline T V) (index : list nat) (w : T) : res (rspline T V) :=
  do f <- SetControlPoint (weight_function r) index w; Ok (mkR (weighted_spline r) f).
End Access.
