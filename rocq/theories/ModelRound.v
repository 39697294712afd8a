(** Splines computed with rounded arithmetic.

    A number with [p] binary digits is an integer of at most [p] digits times a power of two; the
    exponent is unbounded, so there is no overflow and no underflow ([p] = 53 for double, 24 for
    float). Every operation returns a number nearest to the exact result; how ties are broken is
    left open. Operations are rounded one by one (no extended precision; fused multiply-add is in ModelFma.v). *)
From Coq Require Import Arith List NArith ZArith Bool Reals.
From Verif Require Import Prelude Scalar ModelBasis ModelSpline ModelRational.
Import ListNotations.
Local Open Scope R_scope.

Definition representable (p : nat) (x : R) : Prop :=
  exists m e : Z, (Z.abs m < 2 ^ Z.of_nat p)%Z /\ x = IZR m * powerRZ 2 e.

(** Rounding to nearest, any rule for ties. *)
Definition nearest (p : nat) (rnd : R -> R) : Prop :=
  forall x, representable p (rnd x) /\ forall y, representable p y -> Rabs (rnd x - x) <= Rabs (y - x).

(** The operations on ScalarType. Negation and comparisons are exact. *)
Definition SOps_rnd (rnd : R -> R) : SOps R := {|
  s0 := 0; s1 := 1;
  sadd := fun x y => rnd (x + y);
  ssub := fun x y => rnd (x - y);
  smul := fun x y => rnd (x * y);
  sopp := Ropp;
  sdiv := fun x y => rnd (x / y);
  sltb := fun x y => if Rlt_dec x y then true else false;
  seqb := fun x y => if Req_EM_T x y then true else false;
  sofN := fun k => rnd (IZR (Z.of_N k))
|}.

(** The evaluation functions of the spline classes in this arithmetic, for point-valued and
    scalar-valued splines. *)
Section Rounded.
Context (rnd : R -> R).
Definition Evaluate_rnd {d} (s : spline (point R d)) (xs : list R) : res (point R d) :=
  Evaluate (o := SOps_rnd rnd) (ov := VOps_point R d (o := SOps_rnd rnd)) s xs.
Definition Evaluate_rnd_s (s : spline R) (xs : list R) : res R :=
  Evaluate (o := SOps_rnd rnd) (ov := VOps_scalar R (o := SOps_rnd rnd)) s xs.
Definition BasisFunctions_rnd (MAXB : nat) {V} (s : spline V) (xs : list R) : res (list R) :=
  BasisFunctions (o := SOps_rnd rnd) MAXB s xs.
Definition ForwardEvaluate_rnd (MAXB : nat) {d} (s : spline (point R d)) (xs : list R) : res (point R d) :=
  ForwardEvaluate (o := SOps_rnd rnd) (ov := VOps_point R d (o := SOps_rnd rnd)) MAXB s xs.
Definition ForwardEvaluate_rnd_s (MAXB : nat) (s : spline R) (xs : list R) : res R :=
  ForwardEvaluate (o := SOps_rnd rnd) (ov := VOps_scalar R (o := SOps_rnd rnd)) MAXB s xs.
(** src/rational_bezier_spline.inc:126-133, dividing a Point multiplies by the inverse. *)
Definition R_Evaluate_rnd {d} (r : rspline R (point R d)) (xs : list R) : res (point R d) :=
  R_Evaluate (o := SOps_rnd rnd) (ov := VOps_point R d (o := SOps_rnd rnd)) r xs.

(** Degree elevation, sums, subdivision and derivative splines in this arithmetic. *)
Definition OrderElevate_rnd {d} (s : spline (point R d)) (k : nat) : res (spline (point R d)) :=
  OrderElevate (o := SOps_rnd rnd) (ov := VOps_point R d (o := SOps_rnd rnd)) s k.
Definition OrderElevate_rnd_s (s : spline R) (k : nat) : res (spline R) :=
  OrderElevate (o := SOps_rnd rnd) (ov := VOps_scalar R (o := SOps_rnd rnd)) s k.
Definition spline_add_rnd (fuel : nat) {d} (s rhs : spline (point R d)) : res (spline (point R d)) :=
  spline_add (o := SOps_rnd rnd) (ov := VOps_point R d (o := SOps_rnd rnd)) fuel s rhs.
Definition spline_add_rnd_s (fuel : nat) (s rhs : spline R) : res (spline R) :=
  spline_add (o := SOps_rnd rnd) (ov := VOps_scalar R (o := SOps_rnd rnd)) fuel s rhs.
Definition spline_add_assign_rnd (fuel : nat) {d} (s rhs : spline (point R d)) : res (spline (point R d)) :=
  spline_add_assign (o := SOps_rnd rnd) (ov := VOps_point R d (o := SOps_rnd rnd)) fuel s rhs.
Definition spline_add_assign_rnd_s (fuel : nat) (s rhs : spline R) : res (spline R) :=
  spline_add_assign (o := SOps_rnd rnd) (ov := VOps_scalar R (o := SOps_rnd rnd)) fuel s rhs.
Definition spline_sub_assign_rnd (fuel : nat) {d} (s rhs : spline (point R d)) : res (spline (point R d)) :=
  spline_sub_assign (o := SOps_rnd rnd) (ov := VOps_point R d (o := SOps_rnd rnd)) fuel s rhs.
Definition spline_sub_assign_rnd_s (fuel : nat) (s rhs : spline R) : res (spline R) :=
  spline_sub_assign (o := SOps_rnd rnd) (ov := VOps_scalar R (o := SOps_rnd rnd)) fuel s rhs.
Definition SplitAtPosition_rnd {d} (s : spline (point R d)) (x : R) (k : nat) : res (list (spline (point R d))) :=
  SplitAtPosition (o := SOps_rnd rnd) (ov := VOps_point R d (o := SOps_rnd rnd)) s x k.
Definition SplitAtPosition_rnd_s (s : spline R) (x : R) (k : nat) : res (list (spline R)) :=
  SplitAtPosition (o := SOps_rnd rnd) (ov := VOps_scalar R (o := SOps_rnd rnd)) s x k.
Definition SplitAtPositions_rnd {d} (s : spline (point R d)) (planes : list R) (k : nat) : res (list (spline (point R d))) :=
  SplitAtPositions (o := SOps_rnd rnd) (ov := VOps_point R d (o := SOps_rnd rnd)) s planes k.
Definition DerivativeWRT_rnd (MAXB : nat) {d} (s : spline (point R d)) (orders : list nat) : res (spline (point R d)) :=
  DerivativeWRT (o := SOps_rnd rnd) (ov := VOps_point R d (o := SOps_rnd rnd)) MAXB s orders.
Definition DerivativeWRT_rnd_s (MAXB : nat) (s : spline R) (orders : list nat) : res (spline R) :=
  DerivativeWRT (o := SOps_rnd rnd) (ov := VOps_scalar R (o := SOps_rnd rnd)) MAXB s orders.
End Rounded.
