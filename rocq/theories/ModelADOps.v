(** The operations on splines whose ScalarType is [AlgoDiffType<double, n>].

    [phys S k] is the PhysicalPointType over the ScalarType [S]: the ScalarType itself for
    [k = None], [Point<d, S>] for [k = Some d]. *)
From Coq Require Import Arith List NArith ZArith Reals.
From Verif Require Import Prelude Scalar ModelBasis ModelSpline ModelRational ModelPoint ModelAD ModelADSpline.
Import ListNotations.
Local Open Scope R_scope.

Definition phys (S : Type) (k : option nat) : Type := match k with None => S | Some d => point S d end.
#[global] Instance VOps_phys (S : Type) (k : option nat) {o : SOps S} : VOps S (phys S k) :=
  match k return VOps S (phys S k) with None => VOps_scalar S | Some d => VOps_point S d end.

(** src/point.hpp:148-158  the scalar product of points; its loop only accesses existing coordinates,
    so the other outcomes do not occur. *)
Definition pdot {S : Type} {o : SOps S} (d : nat) (p q : point S d) : S :=
  match point_dot p q with Ok r => r | _ => s0 end.

Section ADnum.
Context (n : nat).
#[local] Instance oAD : SOps (adt R) := SOps_AD n.
Notation A := (adt R).

(** src/bezier_spline.inc: the members of BezierSpline, see ModelSpline.v for the lines. *)
Section Poly.
Context {k : option nat}.
Notation VA := (phys A k).
Definition AD_UpdateDegrees (s : spline VA) (degs : list nat) : res (spline VA) := UpdateDegrees s degs.
Definition AD_OrderElevate (s : spline VA) (dim : nat) : res (spline VA) := OrderElevate s dim.
Definition AD_Evaluate (s : spline VA) (xs : list A) : res VA := Evaluate s xs.
Definition AD_ForwardEvaluate (MAXB : nat) (s : spline VA) (xs : list A) : res VA := ForwardEvaluate MAXB s xs.
Definition AD_EvaluateDerivative (MAXB : nat) (s : spline VA) (xs : list A) (orders : list nat) : res VA :=
  EvaluateDerivative MAXB s xs orders.
Definition AD_BasisFunctions (MAXB : nat) (s : spline VA) (xs : list A) : res (list A) := BasisFunctions MAXB s xs.
Definition AD_BasisFunctionsDerivatives (MAXB : nat) (s : spline VA) (xs : list A) (orders : list nat) : res (list A) :=
  BasisFunctionsDerivatives MAXB s xs orders.
Definition AD_DerivativeWRT (MAXB : nat) (s : spline VA) (orders : list nat) : res (spline VA) := DerivativeWRT MAXB s orders.
Definition AD_spline_scale (s : spline VA) (c : A) : res (spline VA) := spline_scale s c.
Definition AD_spline_shift (s : spline VA) (p : VA) : res (spline VA) := spline_shift s p.
Definition AD_spline_unshift (s : spline VA) (p : VA) : res (spline VA) := spline_unshift s p.
Definition AD_spline_neg (s : spline VA) : res (spline VA) := spline_neg s.
Definition AD_point_minus_spline (p : VA) (s : spline VA) : res (spline VA) := point_minus_spline p s.
Definition AD_spline_add (fuel : nat) (s t : spline VA) : res (spline VA) := spline_add fuel s t.
Definition AD_spline_add_assign (fuel : nat) (s t : spline VA) : res (spline VA) := spline_add_assign fuel s t.
Definition AD_spline_sub (fuel : nat) (s t : spline VA) : res (spline VA) := spline_sub fuel s t.
Definition AD_spline_sub_assign (fuel : nat) (s t : spline VA) : res (spline VA) := spline_sub_assign fuel s t.
Definition AD_SplitAtPosition (s : spline VA) (x : A) (dim : nat) : res (list (spline VA)) := SplitAtPosition s x dim.
Definition AD_SplitAtPositions (s : spline VA) (xs : list A) (dim : nat) : res (list (spline VA)) := SplitAtPositions s xs dim.
Definition AD_mul_vs (MAXB : nat) (s : spline VA) (t : spline A) : res (spline VA) := spline_mul_vs MAXB s t.
Definition AD_mul_sv (MAXB : nat) (s : spline A) (t : spline VA) : res (spline VA) := spline_mul_sv MAXB s t.
Definition AD_Compose (MAXB : nat) {d} (s : spline VA) (t : spline (point A d)) : res (spline VA) := Compose MAXB s t.
Definition AD_ComposeSensitivity (MAXB : nat) {d} (s : spline VA) (t : spline (point A d)) : res (list (spline A)) :=
  ComposeSensitivity MAXB s t.
End Poly.
Definition AD_mul_dot (MAXB : nat) {d} (s t : spline (point A d)) : res (spline A) := spline_mul MAXB (pdot d) s t.
Definition AD_RaisePower (MAXB : nat) (s : spline A) (power : nat) : res (spline A) := RaisePower MAXB s power.
Definition AD_ExtractDimension {d} (s : spline (point A d)) (i : nat) : res (spline A) := ExtractDimension s i.
Definition AD_TransposeAndScale {d} (s : spline (point A d)) (t c : point A d) : res (spline (point A d)) :=
  TransposeAndScale s t c.

(** src/rational_bezier_spline.inc: the members of RationalBezierSpline, see ModelRational.v. *)
Section Rat.
Context {k : option nat}.
Notation VA := (phys A k).
Notation RA := (rspline A VA).
Definition AD_R_ControlPoint (r : RA) (index : list nat) : res VA := R_ControlPoint r index.
Definition AD_R_Evaluate (r : RA) (xs : list A) : res VA := R_Evaluate r xs.
Definition AD_R_EvaluateDerivative (MAXB : nat) (r : RA) (xs : list A) (orders : list nat) : res VA :=
  R_EvaluateDerivative MAXB r xs orders.
Definition AD_R_BasisFunctions (MAXB : nat) (r : RA) (xs : list A) : res (list A) := R_BasisFunctions MAXB r xs.
Definition AD_R_BasisFunctionsDerivatives (MAXB : nat) (r : RA) (xs : list A) (orders : list nat) : res (list A) :=
  R_BasisFunctionsDerivatives MAXB r xs orders.
Definition AD_R_OrderElevate (r : RA) (dim : nat) : res RA := R_OrderElevate r dim.
Definition AD_R_DerivativeWRT (MAXB fuel : nat) (r : RA) (orders : list nat) : res RA := R_DerivativeWRT MAXB fuel r orders.
Definition AD_R_scale_assign (r : RA) (c : A) : res RA := R_scale_assign r c.
Definition AD_R_shift_assign (r : RA) (p : VA) : res RA := R_shift_assign r p.
Definition AD_R_unshift_assign (r : RA) (p : VA) : res RA := R_unshift_assign r p.
Definition AD_R_neg (r : RA) : res RA := R_neg r.
Definition AD_R_add (MAXB fuel : nat) (r q : RA) : res RA := R_add MAXB fuel r q.
Definition AD_R_add_assign (MAXB fuel : nat) (r q : RA) : res RA := R_add_assign MAXB fuel r q.
Definition AD_R_sub (MAXB fuel : nat) (r q : RA) : res RA := R_sub MAXB fuel r q.
Definition AD_R_sub_assign (MAXB fuel : nat) (r q : RA) : res RA := R_sub_assign MAXB fuel r q.
Definition AD_R_mul_vs (MAXB : nat) (r : RA) (q : rspline A A) : res RA := R_mul MAXB (fun p c => vscale c p) r q.
Definition AD_R_mul_sv (MAXB : nat) (r : rspline A A) (q : RA) : res RA := R_mul MAXB (fun c p => vscale c p) r q.
Definition AD_R_SplitAtPosition (r : RA) (x : A) (dim : nat) : res (list RA) := R_SplitAtPosition r x dim.
Definition AD_R_SplitAtPositions (r : RA) (xs : list A) (dim : nat) : res (list RA) := R_SplitAtPositions r xs dim.
Definition AD_Compose_PR (MAXB fuel : nat) {d} (s : spline VA) (t : rspline A (point A d)) : res RA := Compose_PR MAXB fuel s t.
Definition AD_Compose_RP (MAXB : nat) {d} (s : RA) (t : spline (point A d)) : res RA := Compose_RP MAXB s t.
Definition AD_Compose_RR (MAXB fuel : nat) {d} (s : RA) (t : rspline A (point A d)) : res RA := Compose_RR MAXB fuel s t.
Definition AD_ComposeSensitivity_PR (MAXB fuel : nat) {d} (s : spline VA) (t : rspline A (point A d)) : res (list (rspline A A)) :=
  ComposeSensitivity_PR MAXB fuel s t.
Definition AD_ComposeSensitivity_RP (MAXB : nat) {d} (s : RA) (t : spline (point A d)) : res (list (rspline A A)) :=
  ComposeSensitivity_RP MAXB s t.
Definition AD_ComposeSensitivity_RR (MAXB fuel : nat) {d} (s : RA) (t : rspline A (point A d)) : res (list (rspline A A)) :=
  ComposeSensitivity_RR MAXB fuel s t.
End Rat.
Definition AD_R_mul_dot (MAXB : nat) {d} (r q : rspline A (point A d)) : res (rspline A A) := R_mul MAXB (pdot d) r q.
End ADnum.
