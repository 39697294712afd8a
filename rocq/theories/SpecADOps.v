(** Objects built from numbers that carry the value and the gradient of a function. *)
From Coq Require Import Arith List Reals.
From Verif Require Import Prelude Scalar ModelSpline ModelRational ModelAD ModelADOps SpecADSpline.
Import ListNotations.
Local Open Scope R_scope.

(** A PhysicalPointType: a scalar or a point. *)
Definition tracks_phys (y : list R) (k : option nat) : phys (adt R) k -> (list R -> phys R k) -> Prop :=
  match k with None => tracks y | Some d => tracks_point y d end.

(** Lists, polynomial and rational splines: every entry; the shape does not depend on the variables. *)
Definition tracks_list {A1 A} (Tr : A1 -> (list R -> A) -> Prop) (l : list A1) (f : list R -> list A) : Prop :=
  (forall y', length (f y') = length l) /\
  forall i a (z : A), nth_error l i = Some a -> Tr a (fun y' => nth i (f y') z).
Definition tracks_spline {V1 V} (Tr : V1 -> (list R -> V) -> Prop) (s : spline V1) (f : list R -> spline V) : Prop :=
  (forall y', degrees (f y') = degrees s /\ number_of_control_points (f y') = number_of_control_points s /\
     index_offsets (f y') = index_offsets s) /\
  tracks_list Tr (control_points s) (fun y' => control_points (f y')).
Definition tracks_rspline {T1 T V1 V} (TrT : T1 -> (list R -> T) -> Prop) (Tr : V1 -> (list R -> V) -> Prop)
  (r : rspline T1 V1) (f : list R -> rspline T V) : Prop :=
  tracks_spline Tr (weighted_spline r) (fun y' => weighted_spline (f y')) /\
  tracks_spline TrT (weight_function r) (fun y' => weight_function (f y')).

(** A computation with such numbers and the same computation with plain numbers at every value of
    the variables: all have the same outcome, and the result holds the value and the gradient of the
    plain results at [y]. *)
Definition carries {A1 A} (Tr : A1 -> (list R -> A) -> Prop) (m : res A1) (g : list R -> res A) : Prop :=
  match m with
  | Ok a => exists f, (forall y', g y' = Ok (f y')) /\ Tr a f
  | Throw => forall y', g y' = Throw
  | AssertFail => forall y', g y' = AssertFail
  | UB => forall y', g y' = UB
  | NonFinite => forall y', g y' = NonFinite
  | Diverge => forall y', g y' = Diverge
  end.
(** The same if whether the plain computation succeeds depends on the variables: the outcome is the
    one at [y], and the results are the plain results wherever there is one. *)
Definition carries_at {A1 A} (y : list R) (Tr : A1 -> (list R -> A) -> Prop) (m : res A1) (g : list R -> res A) : Prop :=
  match m with
  | Ok a => exists f, g y = Ok (f y) /\ (forall y' e, g y' = Ok e -> e = f y') /\ Tr a f
  | Throw => g y = Throw
  | AssertFail => g y = AssertFail
  | UB => g y = UB
  | NonFinite => g y = NonFinite
  | Diverge => g y = Diverge
  end.
