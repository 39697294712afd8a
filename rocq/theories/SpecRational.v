(** Structural consistency and value of a rational spline (data members and model calls only). *)
From Coq Require Import Arith Lia List NArith.
From Verif Require Import Prelude Scalar Spec ModelSpline SpecSpline ModelRational.
Import ListNotations.

(** Class invariant: both splines consistent and of equal degrees. *)
Definition rwf {T V} (r : rspline T V) : Prop :=
  wf (weighted_spline r) /\ wf (weight_function r) /\
  degrees (weight_function r) = degrees (weighted_spline r).

(** Degrees of a rational spline. *)
Definition rdegrees {T V} (r : rspline T V) : list nat := degrees (weighted_spline r).

(** The parameters where the spline is defined: right length, non-zero weight function. *)
Definition rdomain {T V} {o : SOps T} (r : rspline T V) (xs : list T) : Prop :=
  length xs = length (rdegrees r) /\ value_at (weight_function r) xs <> s0.

(** The value [numerator / denominator]. *)
Definition rvalue {T V} {o : SOps T} {ov : VOps T V} (r : rspline T V) (xs : list T) : V :=
  vscale (sdiv s1 (value_at (weight_function r) xs)) (value_at (weighted_spline r) xs).

(** [call] returns a consistent rational spline with the same weights whose value is [g]
    of the value of [r], at every parameter where [r] is defined. *)
Definition racts_pointwise {T V} {o : SOps T} {ov : VOps T V} (r : rspline T V)
  (call : res (rspline T V)) (g : V -> V) : Prop :=
  exists r', call = Ok r' /\ rwf r' /\ weight_function r' = weight_function r /\
    forall xs : list T, rdomain r xs ->
      exists a, R_Evaluate r xs = Ok a /\ R_Evaluate r' xs = Ok (g a).

(** Every control point lies in the unit cube. *)
Definition in_unit_cube {T} {o : SOps T} {d : nat} (r : rspline T (point T d)) : Prop :=
  forall idx, valid_index (rdegrees r) idx ->
    exists p, R_ControlPoint r idx = Ok p /\ Forall in_unit (plist d p).

(** The same for a scalar-valued spline. *)
Definition in_unit_interval {T} {o : SOps T} (r : rspline T T) : Prop :=
  forall idx, valid_index (rdegrees r) idx -> exists p, R_ControlPoint r idx = Ok p /\ in_unit p.

(** Product of the binomial coefficients [binom a_i b_i]. *)
Fixpoint mbinom (a b : list nat) : N :=
  match a, b with
  | x :: a', y :: b' => (binom x y * mbinom a' b')%N
  | _, _ => 1%N
  end.

(** No product of binomial coefficients met for [orders] exceeds std::size_t. *)
Definition binoms_fit (orders : list nat) : Prop :=
  forall a b, valid_index orders a -> valid_index a b -> (mbinom a b < 2 ^ 64)%N.
