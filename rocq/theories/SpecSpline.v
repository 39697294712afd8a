(** Structural consistency of a spline object (data members only). *)
From Coq Require Import Arith Lia List.
From Verif Require Import Prelude Scalar Spec ModelSpline.
Import ListNotations.

(** Offset of direction [k] is the number of coefficients of the directions before. *)
Definition offsets (degs : list nat) : list nat :=
  map (fun i => n_coeffs (firstn i degs)) (seq 0 (length degs)).


(** Well-formed spline: the class invariant. *)
Definition wf {V} (s : spline V) : Prop :=
  degrees s <> [] /\
  number_of_control_points s = n_coeffs (degrees s) /\
  index_offsets s = offsets (degrees s) /\
  length (control_points s) = n_coeffs (degrees s).

(** The point the spline describes at the parameter [xs] (textbook formula). *)
Definition value_at {T V} {o : SOps T} {ov : VOps T V} (s : spline V) (xs : list T) : V :=
  bezier (degrees s) xs (fun i => nth i (control_points s) v0).

(** Order elevation along a sequence of directions. *)
Fixpoint elevate_many {T V} {o : SOps T} {ov : VOps T V} (s : spline V) (ks : list nat)
  : res (spline V) :=
  match ks with
  | [] => Ok s
  | k :: ks' => do s' <- OrderElevate s k; elevate_many s' ks'
  end.

(** [call] returns a consistent spline of the same degrees whose value is [g] of the
    value of [s], at every parameter. *)
Definition acts_pointwise {T V} {o : SOps T} {ov : VOps T V} (s : spline V)
  (call : res (spline V)) (g : V -> V) : Prop :=
  exists r, call = Ok r /\ wf r /\ degrees r = degrees s /\
    forall xs : list T, length xs = length (degrees s) ->
      exists a, Evaluate s xs = Ok a /\ Evaluate r xs = Ok (g a).
