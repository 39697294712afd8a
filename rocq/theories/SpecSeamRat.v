(** Faces of rational splines: both the weighted control points and the weights agree. *)
From Coq Require Import Arith List Reals.
From Verif Require Import Prelude Scalar Spec SpecSpline SpecRational SpecSeam Coord ModelSpline ModelRational ModelRound SpecRound.
Import ListNotations.

Section Faces.
Context {T V : Type} {o : SOps T} {ov : VOps T V}.
Definition rational_joined (k : nat) (a b : rspline T V) : Prop :=
  joined (ov := ov) k (weighted_spline a) (weighted_spline b) /\ joined (ov := VOps_scalar T) k (weight_function a) (weight_function b).
Definition rational_same_near_face (k : nat) (a b : rspline T V) : Prop :=
  same_near_face (ov := ov) k (weighted_spline a) (weighted_spline b) /\ same_near_face (ov := VOps_scalar T) k (weight_function a) (weight_function b).
Definition rational_same_far_face (k : nat) (a b : rspline T V) : Prop :=
  same_far_face (ov := ov) k (weighted_spline a) (weighted_spline b) /\ same_far_face (ov := VOps_scalar T) k (weight_function a) (weight_function b).
End Faces.

(** Every stored number has at most [p] binary digits. *)
Definition rational_representable (p : nat) {d} (r : rspline R (point R d)) : Prop :=
  (forall q c, In q (control_points (weighted_spline r)) -> c < d -> representable p (coord d q c)) /\
  (forall w, In w (control_points (weight_function r)) -> representable p w).
