(** Splines whose ScalarType is [AlgoDiffType<double, n>]: the operations the spline classes use on
    their ScalarType, taken from ModelAD.v.

    The number of derivatives is the template parameter, so every object has [n] derivatives and
    the assertions on equal numbers never fail; [run] therefore ignores every outcome but [Ok].
    Divisions by a scalar with value zero are caught by [divS] before the operator is applied. *)
From Coq Require Import Arith List NArith ZArith Reals.
From Verif Require Import Prelude Scalar ModelSpline ModelRational ModelAD.
Import ListNotations.
Local Open Scope R_scope.

Section ADnum.
Context (n : nat).

Definition run (r : res (adt R)) : adt R := match r with Ok a => a | _ => AD_constant n 0 end.

(** Default construction algo_diff_type.hpp:110, conversion of numbers hpp:121-124, operators
    inc:28-194, comparisons hpp:272-306. *)
Definition SOps_AD : SOps (adt R) := {|
  s0 := AD_constant n 0;
  s1 := AD_constant n 1;
  sadd := fun a b => run (AD_add a b);
  ssub := fun a b => run (AD_sub a b);
  smul := fun a b => run (AD_mul a b);
  sopp := fun a => run (AD_neg a);
  sdiv := fun a b => run (AD_div a b);
  sltb := AD_lt;
  seqb := AD_eq;
  sofN := fun k => AD_constant n (IZR (Z.of_N k))
|}.

(** The evaluation functions of the spline classes at this type: points, scalars, rational. *)
Definition Evaluate_AD {d} (s : spline (point (adt R) d)) (xs : list (adt R)) : res (point (adt R) d) :=
  Evaluate (o := SOps_AD) (ov := VOps_point (adt R) d (o := SOps_AD)) s xs.
Definition Evaluate_AD_s (s : spline (adt R)) (xs : list (adt R)) : res (adt R) :=
  Evaluate (o := SOps_AD) (ov := VOps_scalar (adt R) (o := SOps_AD)) s xs.
Definition ForwardEvaluate_AD_s (MAXB : nat) (s : spline (adt R)) (xs : list (adt R)) : res (adt R) :=
  ForwardEvaluate (o := SOps_AD) (ov := VOps_scalar (adt R) (o := SOps_AD)) MAXB s xs.
Definition R_Evaluate_AD {d} (r : rspline (adt R) (point (adt R) d)) (xs : list (adt R)) : res (point (adt R) d) :=
  R_Evaluate (o := SOps_AD) (ov := VOps_point (adt R) d (o := SOps_AD)) r xs.
End ADnum.
