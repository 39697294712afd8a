(** The basis functions and ForwardEvaluate in binary floating-point arithmetic with a bounded exponent range. *)
From Coq Require Import Arith List NArith ZArith Bool Reals.
From Verif Require Import Prelude Scalar ModelBasis ModelSpline ModelRational ModelIEEE.
Import ListNotations.
Local Open Scope R_scope.

Section IEEE.
Context (F : format) (rnd : R -> R).
(** src/bezier_spline.inc:372-397 (BasisFunctions) and 399-423 (ForwardEvaluate). The binomial
    coefficients are converted from integers by rounding. *)
Definition BasisFunctions_ieee (MAXB : nat) {V} (s : spline V) (xs : list fl) : res (list fl) :=
  BasisFunctions (o := SOps_ieee F rnd) MAXB s xs.
Definition ForwardEvaluate_ieee (MAXB : nat) {d} (s : spline (point fl d)) (xs : list fl) : res (point fl d) :=
  ForwardEvaluate (o := SOps_ieee F rnd) (ov := VOps_point fl d (o := SOps_ieee F rnd)) MAXB s xs.
Definition ForwardEvaluate_ieee_s (MAXB : nat) (s : spline fl) (xs : list fl) : res fl :=
  ForwardEvaluate (o := SOps_ieee F rnd) (ov := VOps_scalar fl (o := SOps_ieee F rnd)) MAXB s xs.
End IEEE.
